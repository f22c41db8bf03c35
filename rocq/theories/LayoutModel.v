(** Model of the representation of sums in LLVM: hugr-llvm/src/sum.rs and
    hugr-llvm/src/sum/layout.rs.

    LLVM types are a type [T] with an order ([BasicTypeOrd], layout.rs:56-88); run-time values are a
    type [V] with a type each.  Instructions are modelled by what they compute ([insertvalue] and
    [extractvalue] on a list of slots). *)
From Coq Require Import List Bool Arith NArith.
From Verif Require Import BMap.
Import ListNotations.

Section Layout.
Context {T : Type} (cmp : T -> T -> comparison) (elide : T -> bool).

(** * The fields of the struct *)

(** The counts of one variant (layout.rs:105-116). *)
Definition count_step (m : list (T * nat)) (t : T) : list (T * nat) :=
  if elide t then m
  else match bm_get cmp t m with
       | Some c => bm_insert cmp t (c + 1) m
       | None => bm_insert cmp t 1 m
       end.
Definition variant_counts (variant : list T) : list (T * nat) := fold_left count_step variant [].

(** The counts of all variants (layout.rs:117-125). *)
Definition merge_step (m : list (T * nat)) (tc : T * nat) : list (T * nat) :=
  match bm_get cmp (fst tc) m with
  | Some x => bm_insert cmp (fst tc) (Nat.max (snd tc) x) m
  | None => bm_insert cmp (fst tc) (snd tc) m
  end.
Definition type_counts (variants : list (list T)) : list (T * nat) :=
  fold_left merge_step (flat_map variant_counts variants) [].

(** [sorted_fields] (layout.rs:126-129). *)
Definition sorted_fields (counts : list (T * nat)) : list T :=
  flat_map (fun tc => repeat (fst tc) (snd tc)) counts.

(** [t_to_range] (layout.rs:131-138): per type the first index and the index after the last one. *)
Fixpoint ranges (offset : nat) (counts : list (T * nat)) : list (T * (nat * nat)) :=
  match counts with
  | [] => []
  | (t, c) :: counts => (t, (offset, offset + c)) :: ranges (offset + c) counts
  end.

(** The indices of one variant (layout.rs:173-186); each field takes the next index of the range of
    its type.  [None]: [expect] panics. *)
Fixpoint layout_variant (m : list (T * (nat * nat))) (variant : list T) : option (list (option nat)) :=
  match variant with
  | [] => Some []
  | t :: variant =>
    if elide t then option_map (cons None) (layout_variant m variant)
    else match bm_get cmp t m with
         | Some (i, e) =>
           if i <? e then option_map (cons (Some i)) (layout_variant (bm_insert cmp t (i + 1, e) m) variant)
           else None
         | None => None
         end
  end.
Fixpoint all_some {A} (l : list (option A)) : option (list A) :=
  match l with
  | [] => Some []
  | Some a :: l => option_map (cons a) (all_some l)
  | None :: _ => None
  end.

(** [layout_variants_impl] (layout.rs:160-206). *)
Definition layout_variants (variants : list (list T)) : option (list T * list (list (option nat))) :=
  let counts := type_counts variants in
  option_map (pair (sorted_fields counts))
    (all_some (map (layout_variant (ranges 0 counts)) variants)).

(** * Sum types *)

(** [LLVMSumTypeEnum] (sum.rs:189-262).  Of the struct types the fields without the tag are kept; the
    width of the tag of a type with several variants is computed from their number. *)
Inductive sum_type :=
| Void
| Unit (field_types : list T)
| NoFields (variant_types : list (list T)) (width : N)
| SingleField (field_types : list T) (field_index : nat)
| MultiField (field_types : list T) (field_indices : list (option nat)) (fields : list T)
| MultiVariant (variant_types : list (list T)) (field_indices : list (list (option nat)))
               (width : N) (fields : list T).

(** [tag_width_for_num_variants] (sum.rs:265-271). *)
Definition tag_width (n : nat) : N := if n =? 1 then 1%N else (N.log2 (N.of_nat (n - 1)) + 1)%N.

(** The positions of the fields that are not elided (sum.rs:294-298). *)
Fixpoint kept_positions (i : nat) (l : list (option nat)) : list nat :=
  match l with
  | [] => []
  | Some _ :: l => i :: kept_positions (S i) l
  | None :: l => kept_positions (S i) l
  end.

(** [LLVMSumTypeEnum::try_new] (sum.rs:276-337); [None]: an [unwrap] or [expect] panics. *)
Definition try_new (variant_types : list (list T)) : option sum_type :=
  match variant_types with
  | [] => Some Void
  | [types] =>
    match layout_variants [types] with
    | Some (fields, [indices]) =>
      match fields with
      | [] => Some (Unit types)
      | [_] => match kept_positions 0 indices with
               | [i] => Some (SingleField types i)
               | _ => None
               end
      | _ => Some (MultiField types indices fields)
      end
    | _ => None
    end
  | _ =>
    match layout_variants variant_types with
    | Some (fields, indices) =>
      let width := tag_width (length variant_types) in
      Some (if length fields =? 0 then NoFields variant_types width
            else MultiVariant variant_types indices width fields)
    | None => None
    end
  end.

(** [num_variants] (sum.rs:440-451), [fields_for_variant] (sum.rs:460-473). *)
Definition num_variants (s : sum_type) : nat :=
  match s with
  | Void => 0
  | Unit _ | SingleField _ _ | MultiField _ _ _ => 1
  | NoFields vs _ | MultiVariant vs _ _ _ => length vs
  end.
Definition fields_for_variant (s : sum_type) (tag : nat) : list T :=
  match s with
  | Void => []
  | Unit ts | SingleField ts _ | MultiField ts _ _ => ts
  | NoFields vs _ | MultiVariant vs _ _ _ => nth tag vs []
  end.

(** * Values *)
Context {V : Type} (typ : V -> T) (undef : T -> V).

(** A slot of a struct; the representation of a sum value. *)
Inductive slot := Poison | Tag (n : N) | Val (v : V).
Inductive rep := RUnit | RInt (n : N) | RField (v : V) | RStruct (slots : list slot).

(** [insertvalue]; [None]: no such field. *)
Fixpoint set_slot (l : list slot) (i : nat) (x : slot) : option (list slot) :=
  match l, i with
  | [], _ => None
  | _ :: l, O => Some (x :: l)
  | y :: l, S i => option_map (cons y) (set_slot l i x)
  end.
Fixpoint insert_all (off : nat) (indices : list (option nat)) (vs : list V) (s : list slot)
  : option (list slot) :=
  match indices, vs with
  | Some i :: indices, v :: vs =>
      match set_slot s (i + off) (Val v) with
      | Some s => insert_all off indices vs s
      | None => None
      end
  | None :: indices, _ :: vs => insert_all off indices vs s
  | [], [] => Some s
  | _, _ => None
  end.

Context (teq : T -> T -> bool).
Fixpoint types_match (vs : list V) (ts : list T) : bool :=
  match vs, ts with
  | [], [] => true
  | v :: vs, t :: ts => teq (typ v) t && types_match vs ts
  | _, _ => false
  end.

(** [const_int] at the width of the tag. *)
Definition tag_const (width : N) (tag : nat) : N := (N.of_nat tag mod 2 ^ width)%N.

(** [build_tag] (sum.rs:346-407); [None]: an error is returned. *)
Definition build_tag (s : sum_type) (tag : nat) (vs : list V) : option rep :=
  if (tag <? num_variants s) && types_match vs (fields_for_variant s tag) then
    match s with
    | Void => None
    | Unit _ => Some RUnit
    | NoFields _ width => Some (RInt (tag_const width tag))
    | SingleField _ i => option_map RField (nth_error vs i)
    | MultiField _ indices fields =>
        option_map RStruct (insert_all 0 indices vs (repeat Poison (length fields)))
    | MultiVariant _ indices width fields =>
        match set_slot (repeat Poison (S (length fields))) 0 (Tag (tag_const width tag)) with
        | Some s => option_map RStruct (insert_all 1 (nth tag indices []) vs s)
        | None => None
        end
    end
  else None.

(** [build_get_tag] (sum.rs:541-558): the tag that is read at run time. *)
Definition get_tag (s : sum_type) (r : rep) : option N :=
  match s, r with
  | Unit _, _ | SingleField _ _, _ | MultiField _ _ _, _ => Some 0%N
  | NoFields _ _, RInt n => Some n
  | MultiVariant _ _ _ _, RStruct (Tag n :: _) => Some n
  | _, _ => None
  end.

(** A field that is read back; a slot that was not set gives poison ([None]). *)
Definition slot_val (s : list slot) (i : nat) : option V :=
  match nth_error s i with Some (Val v) => Some v | _ => None end.
Fixpoint extract_all (off : nat) (ts : list T) (indices : list (option nat)) (s : list slot) : list (option V) :=
  match ts, indices with
  | t :: ts, Some i :: indices => slot_val s (i + off) :: extract_all off ts indices s
  | t :: ts, None :: indices => Some (undef t) :: extract_all off ts indices s
  | _, _ => []
  end.
Fixpoint single_fields (i : nat) (index : nat) (ts : list T) (v : V) : list (option V) :=
  match ts with
  | [] => []
  | t :: ts => Some (if i =? index then v else undef t) :: single_fields (S i) index ts v
  end.

(** [build_untag] (sum.rs:564-640). *)
Definition untag (s : sum_type) (tag : nat) (r : rep) : option (list (option V)) :=
  if tag <? num_variants s then
    match s, r with
    | Unit ts, _ => Some (map (fun t => Some (undef t)) ts)
    | NoFields vs _, _ => Some (map (fun t => Some (undef t)) (nth tag vs []))
    | SingleField ts i, RField v => Some (single_fields 0 i ts v)
    | MultiField ts indices _, RStruct s => Some (extract_all 0 ts indices s)
    | MultiVariant vs indices _ _, RStruct s =>
        Some (extract_all 1 (nth tag vs []) (nth tag indices []) s)
    | _, _ => None
    end
  else None.
End Layout.
Arguments Void {T}. Arguments Poison {V}. Arguments RUnit {V}. Arguments RInt {V}.
Arguments Tag {V}.
