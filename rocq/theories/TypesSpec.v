(** Specification vocabulary for types, kinds and substitution. *)
From Coq Require Import List Bool NArith Arith.
From Verif Require Import TypesModel.
Import ListNotations.

(** What it means for a type to be copyable, from its components. *)
Inductive copyable_ty : ty -> Prop :=
| CExt : forall e i args, copyable_ty (TExt e i args Copyable)
| CAlias : forall n, copyable_ty (TAlias n Copyable)
| CFun : forall x y, copyable_ty (TFun x y)
| CVar : forall i, copyable_ty (TVar i Copyable)
| CRow : forall i, copyable_ty (TRow i Copyable)
| CSum : forall rows b, (forall row t, In row rows -> In t row -> copyable_ty t) -> copyable_ty (TSum rows b).

(** The cached bounds of all sums agree with their components, at every depth. *)
Fixpoint cached_ty (t : ty) : Prop :=
  match t with
  | TExt _ _ args _ => fold_right (fun a P => cached_term a /\ P) True args
  | TFun x y =>
    fold_right (fun a P => cached_ty a /\ P) True x /\ fold_right (fun a P => cached_ty a /\ P) True y
  | TSum rows b =>
    fold_right (fun row P => fold_right (fun a P => cached_ty a /\ P) True row /\ P) True rows /\
    (b = Copyable <-> forall row t, In row rows -> In t row -> lub t = Copyable)
  | _ => True
  end
with cached_term (t : term) : Prop :=
  match t with
  | MType x | KConst x => cached_ty x
  | MList l | MListConcat l | MTuple l | MTupleConcat l =>
    fold_right (fun a P => cached_term a /\ P) True l
  | KList x | KTuple x => cached_term x
  | _ => True
  end.

(** The variables a type or term mentions are below [n]. *)
Fixpoint scoped_ty (n : nat) (t : ty) : bool :=
  match t with
  | TExt _ _ args _ => forallb (scoped_term n) args
  | TAlias _ _ => true
  | TFun x y => forallb (scoped_ty n) x && forallb (scoped_ty n) y
  | TVar i _ | TRow i _ => i <? n
  | TSum rows _ => forallb (forallb (scoped_ty n)) rows
  end
with scoped_term (n : nat) (t : term) : bool :=
  match t with
  | MType x | KConst x => scoped_ty n x
  | MList l | MListConcat l | MTuple l | MTupleConcat l => forallb (scoped_term n) l
  | MVar i _ => i <? n
  | KList x | KTuple x => scoped_term n x
  | _ => true
  end.

(** No row variable anywhere: neither in a row nor as an element of a list of types. *)
Fixpoint norow_ty (t : ty) : bool :=
  match t with
  | TExt _ _ args _ => forallb norow_term args
  | TAlias _ _ | TVar _ _ => true
  | TFun x y => forallb norow_ty x && forallb norow_ty y
  | TRow _ _ => false
  | TSum rows _ => forallb (forallb norow_ty) rows
  end
with norow_term (t : term) : bool :=
  match t with
  | MType x | KConst x => norow_ty x
  | MList l | MListConcat l | MTuple l | MTupleConcat l => forallb norow_term l
  | MVar _ decl => match row_bound decl with Some _ => false | None => true end
  | KList x | KTuple x => norow_term x
  | _ => true
  end.

(** The fragment of the term language on which substitution is well behaved: no concatenations, no
    tuple kinds, single types where a single type is expected, and lists whose elements are all
    types (or row variables) or all something else.  [rows] says whether row variables may occur
    in rows of types. *)
Definition single (t : ty) : bool := match t with TRow _ _ => false | _ => true end.
Fixpoint plain_ty (rows : bool) (t : ty) : bool :=
  match t with
  | TExt _ _ args _ => forallb (plain_term rows) args
  | TAlias _ _ | TVar _ _ => true
  | TFun x y => forallb (plain_ty rows) x && forallb (plain_ty rows) y
  | TRow _ _ => rows
  | TSum rs _ => forallb (forallb (plain_ty rows)) rs
  end
with plain_term (rows : bool) (t : term) : bool :=
  match t with
  | MType x | KConst x => single x && plain_ty rows x
  | MList l =>
    forallb (plain_term rows) l && (forallb is_type l || forallb (fun e => negb (is_type e)) l)
  | MTuple l => forallb (plain_term rows) l
  | MListConcat _ | MTupleConcat _ | KTuple _ => false
  | MVar _ decl => match decl with KType _ => false | _ => true end
  | KList x => plain_term rows x
  | _ => true
  end.

(** Kinds related to themselves. *)
Fixpoint self_kind (k : term) : bool :=
  match k with
  | KList x | KTuple x => self_kind x
  | MList l | MTuple l => forallb self_kind l
  | KConst _ | MListConcat _ | MTupleConcat _ => false
  | _ => true
  end.

(** Kinds without "list of rows of types". *)
Fixpoint flat_kind (k : term) : bool :=
  match k with
  | KList (KList (KType _)) => false
  | KList x | KTuple x => flat_kind x
  | MList l | MListConcat l => forallb flat_kind l
  | _ => true
  end.

(** Type definitions whose bound refers to parameters that are types. *)
Definition sane_def (d : typedef) : Prop :=
  match td_bound d with
  | DExplicit _ => True
  | DFromParams is => forall i, In i is -> exists b, nth_error (td_params d) i = Some (KType b)
  end.

(** Arguments for row parameters are written out as lists. *)
Definition rows_listed (args decls : list term) : Prop :=
  forall i a b, nth_error args i = Some a -> nth_error decls i = Some (KList (KType b)) ->
                exists l, a = MList l.

(** The identity substitution for a list of declarations. *)
Definition identity_args (decls : list term) : list term :=
  map (fun p => new_var_use (fst p) (snd p)) (combine (seq 0 (length decls)) decls).
