(** Model of the abstract values of the dataflow analysis.
    Source: hugr-passes/src/dataflow/partial_value.rs.

    [V] is the underlying abstract domain with the default [try_join]/[try_meet] of
    [AbstractValue] (l.24-37: equal or unrepresentable), which is what every implementation in
    the repository uses.  [N] is the node type, [A] the type-argument list of a loaded function.
    [HashMap<usize, Vec<_>>] is an association list sorted by key, so map equality is equality;
    the only place where hash order could be observed is [partial_cmp], modelled in key order.
    [assert_invariants] (l.82-87: no empty sum) is the premise [pv_wf] of the theorems, shown to
    be preserved. *)
From Coq Require Import List Bool NArith Arith.
From Verif Require Import BMap.
Import ListNotations.

Section PVal.
  Context {V N A : Type}.
  Context (veq : forall a b : V, {a = b} + {a <> b}) (neq : forall a b : N, {a = b} + {a <> b})
          (aeq : forall a b : A, {a = b} + {a <> b}).

  (** l.324-335, l.69. *)
  Inductive pv :=
  | Bottom
  | LF (node : N) (args : A)
  | Val (v : V)
  | PSum (m : list (BinNums.N * list pv))
  | Top.

  Definition psum := list (BinNums.N * list pv).
  Notation get := (bm_get N.compare).
  Notation insert := (bm_insert N.compare).

  (** l.122-126: some common row with different lengths. *)
  Definition join_conflict (m1 m2 : psum) : bool :=
    existsb (fun kv => match get (fst kv) m1 with
                       | Some row => negb (length row =? length (snd kv))
                       | None => false
                       end) m2.

  (** l.157-169: likewise, from the left map; and whether no key is common. *)
  Definition meet_conflict (m1 m2 : psum) : bool :=
    existsb (fun kv => match get (fst kv) m2 with
                       | Some row => negb (length (snd kv) =? length row)
                       | None => false
                       end) m1.
  Definition only_left (m1 m2 : psum) : list BinNums.N :=
    filter (fun k => match get k m2 with None => true | Some _ => false end) (map fst m1).

  (** [x.join_mut(y)] is [join y x] = (new x, changed). l.444-474 and l.121-140. *)
  Fixpoint join (y x : pv) {struct y} : pv * bool :=
    match x, y with
    | Top, _ => (Top, false)
    | _, Bottom => (x, false)
    | _, Top => (Top, true)
    | Bottom, _ => (y, true)
    | Val a, Val b => if veq a b then (Val a, false) else (Top, true)
    | LF n a, LF n' _ => if neq n n' then (LF n a, false) else (Top, true)
    | PSum m1, PSum m2 =>
        if join_conflict m1 m2 then (Top, true)
        else
          let (m, ch) :=
            (fix loop (m2 : psum) (acc : psum) (ch : bool) : psum * bool :=
               match m2 with
               | [] => (acc, ch)
               | (k, v) :: m2' =>
                   match get k acc with
                   | Some row =>
                       let (row', c) :=
                         (fix rows (v : list pv) (row : list pv) : list pv * bool :=
                            match v, row with
                            | rhs :: v', lhs :: row' =>
                                let (e, c) := join rhs lhs in
                                let (es, c') := rows v' row' in (e :: es, c || c')
                            | _, _ => ([], false)
                            end) v row in
                       loop m2' (insert k row' acc) (ch || c)
                   | None => loop m2' (insert k v acc) true
                   end
               end) m2 m1 false in
          (PSum m, ch)
    | _, _ => (Top, true)
    end.

  (** [x.meet_mut(y)] is [meet y x]. l.476-505 and l.151-185. *)
  Fixpoint meet (y x : pv) {struct y} : pv * bool :=
    match x, y with
    | Bottom, _ => (Bottom, false)
    | _, Top => (x, false)
    | _, Bottom => (Bottom, true)
    | Top, _ => (y, true)
    | Val a, Val b => if veq a b then (Val a, false) else (Bottom, true)
    | LF n a, LF n' _ => if neq n n' then (LF n a, false) else (Bottom, true)
    | PSum m1, PSum m2 =>
        if meet_conflict m1 m2 then (Bottom, true)
        else if length (only_left m1 m2) =? length m1 then (Bottom, true)
        else
          let '(m, ch, rem) :=
            (fix loop (m2 : psum) (acc : psum) (ch : bool) (rem : list BinNums.N) : psum * bool * list BinNums.N :=
               match m2 with
               | [] => (acc, ch, rem)
               | (k, v) :: m2' =>
                   match get k acc with
                   | Some row =>
                       let (row', c) :=
                         (fix rows (v : list pv) (row : list pv) : list pv * bool :=
                            match v, row with
                            | rhs :: v', lhs :: row' =>
                                let (e, c) := meet rhs lhs in
                                let (es, c') := rows v' row' in (e :: es, c || c')
                            | _, _ => ([], false)
                            end) v row in
                       loop m2' (insert k row' acc) (ch || c) rem
                   | None => loop m2' acc ch (rem ++ [k])
                   end
               end) m2 m1 false (only_left m1 m2) in
          (PSum (fold_left (fun m k => bm_remove N.compare k m) rem m),
           match rem with [] => ch | _ => true end)
    | _, _ => (Bottom, true)
    end.

  (** ** Comparison *)
  (** Lexicographic comparison of the key indicator vectors, l.276-288: at the least key held by
      only one side, that side is greater. *)
  Fixpoint keys_cmp (m1 m2 : psum) {struct m1} : comparison :=
    match m1, m2 with
    | [], [] => Eq
    | [], _ :: _ => Lt
    | _ :: _, [] => Gt
    | (k1, _) :: m1', (k2, _) :: m2' =>
        match N.compare k1 k2 with Eq => keys_cmp m1' m2' | Lt => Gt | Gt => Lt end
    end.

  (** l.518-536 and l.275-303; rows compare as [Vec]s, lexicographically. *)
  Fixpoint pv_cmp (x y : pv) {struct x} : option comparison :=
    match x, y with
    | Bottom, Bottom => Some Eq
    | Top, Top => Some Eq
    | Bottom, _ => Some Lt
    | _, Bottom => Some Gt
    | Top, _ => Some Gt
    | _, Top => Some Lt
    | Val a, Val b => if veq a b then Some Eq else None
    | LF n a, LF n' a' => if neq n n' then if aeq a a' then Some Eq else None else None
    | PSum m1, PSum m2 =>
        match keys_cmp m1 m2 with
        | Gt => Some Gt
        | Lt => Some Lt
        | Eq =>
            (fix loop (m1 : psum) : option comparison :=
               match m1 with
               | [] => Some Eq
               | (k, lhs) :: m1' =>
                   match get k m2 with
                   | None => None     (* unreachable!() *)
                   | Some rhs =>
                       match (fix lex (a b : list pv) {struct a} : option comparison :=
                                match a, b with
                                | [], [] => Some Eq
                                | [], _ :: _ => Some Lt
                                | _ :: _, [] => Some Gt
                                | p :: a', q :: b' =>
                                    match pv_cmp p q with Some Eq => lex a' b' | r => r end
                                end) lhs rhs with
                       | Some Eq => loop m1'
                       | r => r
                       end
                   end
               end) m1
        end
    | _, _ => None
    end.

  (** ** Queries *)
  (** l.95-97, l.372-380. *)
  Definition supports_tag (x : pv) (k : BinNums.N) : bool :=
    match x with
    | PSum m => match get k m with Some _ => true | None => false end
    | Top => true
    | _ => false
    end.

  (** l.101-106, l.386-392, and [row_contains_bottom] (dataflow.rs): any element contains bottom. *)
  Fixpoint contains_bottom (x : pv) : bool :=
    match x with
    | Bottom => true
    | PSum m => (fix all (m : psum) : bool :=
                   match m with
                   | [] => true
                   | (_, row) :: m' =>
                       (fix any (r : list pv) : bool :=
                          match r with [] => false | v :: r' => contains_bottom v || any r' end) row
                       && all m'
                   end) m
    | _ => false
    end.

  (** l.401-411; [None] inside [inr] is "not that tag", [inl] is the length assertion failing. *)
  Definition variant_values (x : pv) (k : BinNums.N) (len : nat) : unit + option (list pv) :=
    match x with
    | PSum m => match get k m with
                | None => inr None
                | Some r => if length r =? len then inr (Some r) else inl tt
                end
    | Top => inr (Some (repeat Top len))
    | _ => inr None
    end.

  (** ** Conversion to concrete values, l.197-214, l.226-257, l.423-440.
      A type is seen only as far as the code looks: a sum with its rows, or something else.
      Row variables inside a sum type (l.236) are not modelled. *)
  Inductive vty := TOther | TSum (rows : list (list vty)).

  Section Concrete.
    Context {C : Type} (from_value : V -> option C) (from_func : N -> A -> option C)
            (from_sum : BinNums.N -> list C -> list (list vty) -> option C).

    Fixpoint try_into (x : pv) (t : vty) {struct x} : option C :=
      match x with
      | Val v => from_value v
      | LF n a => from_func n a
      | PSum m =>
          match m with
          | [(k, vs)] =>
              match t with
              | TSum rows =>
                  match nth_error rows (N.to_nat k) with
                  | Some r =>
                      if length vs =? length r then
                        match (fix each (vs : list pv) (r : list vty) {struct vs} : option (list C) :=
                                 match vs, r with
                                 | v :: vs', t :: r' =>
                                     match try_into v t with
                                     | Some c => option_map (cons c) (each vs' r')
                                     | None => None
                                     end
                                 | _, _ => Some []
                                 end) vs r with
                        | Some cs => from_sum k cs rows
                        | None => None
                        end
                      else None
                  | None => None
                  end
              | TOther => None
              end
          | _ => None
          end
      | Top | Bottom => None
      end.
  End Concrete.

  (** ** Rows: value_row.rs l.57-78, l.31-38. *)
  Fixpoint row_op (op : pv -> pv -> pv * bool) (other self : list pv) : option (list pv * bool) :=
    match other, self with
    | [], [] => Some ([], false)
    | b :: o', a :: s' =>
        match row_op op o' s' with
        | Some (r, c) => let (e, c') := op b a in Some (e :: r, c' || c)
        | None => None                    (* assert_eq! on the lengths *)
        end
    | _, _ => None
    end.
  Definition row_join := row_op join.
  Definition row_meet := row_op meet.

  (** The first element must be the requested variant of a sum. *)
  Definition unpack_first (row : list pv) (k : BinNums.N) (len : nat) : unit + option (list pv) :=
    match row with
    | [] => inl tt
    | x :: rest => match variant_values x k len with
                   | inl e => inl e
                   | inr None => inr None
                   | inr (Some vs) => inr (Some (vs ++ rest))
                   end
    end.
End PVal.
Arguments pv : clear implicits.
Arguments psum : clear implicits.
