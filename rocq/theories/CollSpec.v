(** What list operations do, and which constants have which type. *)
From Coq Require Import ZArith NArith List.
From Verif Require Import TypesModel CollModel.
Import ListNotations.

(** ** Well-typed constants, all the way down *)
Inductive typed : value -> ty -> Prop :=
| t_usize n : (n < 2 ^ 64)%N -> typed (VUsize n) usize_t
| t_list vs t : Forall (fun v => typed v t) vs -> typed (VList vs t) (list_type t)
| t_sum tag vs rows row : nth_error rows tag = Some row -> Forall2 typed vs row -> typed (VSum tag vs rows) (new_sum rows)
| t_other k t : (forall i b, t <> TRow i b) -> typed (VOther k t) t.
(** Constants whose elements can be seen. *)
Definition transparent (v : value) : Prop := forall k t, v <> VOther k t.

(** ** List operations (documentation of [ListOp], list.rs:147-165) *)
Section Sem.
  Context {E : Type}.
  Inductive arg := AList (l : list E) | AIndex (i : N) | AElem (e : E).
  Inductive res := OList (l : list E) | ONone | OSome (e : E) | OErr (e : E) | OOk (e : E) | ODone | ONat (n : N).
  Inductive sem : list_op -> list arg -> list res -> Prop :=
  | s_pop l x : sem Pop [AList (l ++ [x])] [OList l; OSome x]
  | s_pop_empty : sem Pop [AList []] [OList []; ONone]
  | s_push l x : sem Push [AList l; AElem x] [OList (l ++ [x])]
  | s_get a x b i : i = N.of_nat (length a) -> sem Get [AList (a ++ x :: b); AIndex i] [OSome x]
  | s_get_out l i : (N.of_nat (length l) <= i)%N -> sem Get [AList l; AIndex i] [ONone]
  | s_set a old b i x : i = N.of_nat (length a) -> sem Set_ [AList (a ++ old :: b); AIndex i; AElem x] [OList (a ++ x :: b); OOk old]
  | s_set_out l i x : (N.of_nat (length l) <= i)%N -> sem Set_ [AList l; AIndex i; AElem x] [OList l; OErr x]
  | s_insert a y b i x : i = N.of_nat (length a) -> sem Insert [AList (a ++ y :: b); AIndex i; AElem x] [OList (a ++ x :: y :: b); ODone]
  | s_insert_out l i x : (N.of_nat (length l) <= i)%N -> sem Insert [AList l; AIndex i; AElem x] [OList l; OErr x]
  | s_length l : sem Length [AList l] [OList l; ONat (N.of_nat (length l))].
End Sem.
Arguments arg : clear implicits.
Arguments res : clear implicits.

(** Constants as arguments: by position. *)
Definition arg_of (op : list_op) (v : value) (p : nat) (a : arg value) : Prop :=
  match p, a with
  | 0, AList l => exists t, v = VList l t
  | 1, AElem e => op = Push /\ v = e
  | 1, AIndex i => op <> Push /\ v = VUsize i
  | 2, AElem e => v = e
  | _, _ => False
  end.
Definition args_of (op : list_op) (ins : list value) (args : list (arg value)) : Prop :=
  length ins = length args /\ forall p v a, nth_error ins p = Some v -> nth_error args p = Some a -> arg_of op v p a.
(** Constants as results. *)
Definition res_of (v : value) (r : res value) : Prop :=
  match r with
  | OList l => exists t, v = VList l t
  | ONone => exists rows, v = VSum 0 [] rows
  | OSome e | OOk e => exists rows, v = VSum 1 [e] rows
  | OErr e => exists rows, v = VSum 0 [e] rows
  | ODone => exists rows, v = VSum 1 [VSum 0 [] [[]]] rows
  | ONat n => v = VUsize n
  end.

(** The known inputs of an operation: constants for ports, in any order. *)
Fixpoint ports_from {A} (i : Z) (l : list A) : list (Z * A) := match l with [] => [] | a :: l => (i, a) :: ports_from (i + 1) l end.
(** All outputs, in order. *)
Definition gives (f : folded) (outs : list value) : Prop := f = Outs (ports_from 0 outs).

(** ** Values of the emitted code, with lists as lists *)
Section Run.
  Context {E : Type}.
  Definition arg_run (v : rval (list E) E) (a : arg E) : Prop :=
    match a with AList l => v = RList l | AIndex i => v = RNat i | AElem e => v = RElem e end.
  Definition res_run (v : rval (list E) E) (r : res E) : Prop :=
    match r with
    | OList l => v = RList l
    | ONone => v = RTag 0 []
    | OSome e | OOk e => v = RTag 1 [RElem e]
    | OErr e => v = RTag 0 [RElem e]
    | ODone => v = RTag 1 [RUnit]
    | ONat n => v = RNat n
    end.
  (** A runtime whose functions do what their names say: [set] exchanges the element with the buffer, as the return of the
      old value in the buffer (hugr-llvm list.rs:256, [old_elem]) takes for granted. *)
  Record correct_runtime (rt : runtime (list E) E) : Prop := {
    c_push l e : rt_push _ _ rt l e = l ++ [e];
    c_pop l x j : rt_pop _ _ rt (l ++ [x]) j = (true, l, x);
    c_pop_empty j : exists e, rt_pop _ _ rt [] j = (false, [], e);
    c_get a x b j : rt_get _ _ rt (a ++ x :: b) (N.of_nat (length a)) j = (true, a ++ x :: b, x);
    c_get_out l i j : (N.of_nat (length l) <= i)%N -> exists e, rt_get _ _ rt l i j = (false, l, e);
    c_set a old b x : rt_set _ _ rt (a ++ old :: b) (N.of_nat (length a)) x = (true, a ++ x :: b, old);
    c_set_out l i x : (N.of_nat (length l) <= i)%N -> rt_set _ _ rt l i x = (false, l, x);
    c_insert a y b x : exists e, rt_insert _ _ rt (a ++ y :: b) (N.of_nat (length a)) x = (true, a ++ x :: y :: b, e);
    c_insert_out l i x : (N.of_nat (length l) <= i)%N -> exists e, rt_insert _ _ rt l i x = (false, l, e);
    c_length l : rt_length _ _ rt l = N.of_nat (length l)
  }.
End Run.
