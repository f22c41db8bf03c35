(** Types, static terms, their kinds, and substitution.

    Source: hugr-core/src/types.rs, types/type_param.rs, types/type_row.rs, types/row_var.rs,
    types/custom.rs, types/poly_func.rs, types/signature.rs, extension/type_def.rs.

    Simplifications.  [TypeBase<NoRV>] and [TypeBase<RowVariable>] are one Coq type; where the code
    has [Type] the row variable case does not occur (see [no_rv] in the specification).
    [SumType::Unit {size}] is [size] empty rows: the two representations are equal for [==], and
    every function used here treats them alike.  The bound cached in a [TypeBase] is kept for sums;
    in the other cases it is a copy of a field.  Names, strings, bytes and floats are numbers or
    lists of numbers (floats up to the equality of [OrderedFloat]).  The weak pointer to the
    extension is a lookup in an environment; a lookup that fails is where the code panics or
    returns an error. Debug assertions are not modelled. *)
From Coq Require Import List Bool NArith Arith.
Import ListNotations.

(** types.rs:129-139 [TypeBound]. *)
Inductive bnd := Copyable | Linear.

(** types.rs:156-159 [TypeBound::contains]. *)
Definition bcontains (b1 b2 : bnd) : bool :=
  match b1, b2 with Linear, _ => true | _, Copyable => true | _, _ => false end.

(** types.rs:145-152 [TypeBound::union]. *)
Definition bunion (b1 b2 : bnd) : bnd := if bcontains b1 b2 then b1 else b2.

Definition beqb (b1 b2 : bnd) : bool :=
  match b1, b2 with Copyable, Copyable | Linear, Linear => true | _, _ => false end.

(** types.rs:163-172 [least_upper_bound], a fold that stops at [Linear]. *)
Fixpoint lub_list (acc : bnd) (l : list bnd) : bnd :=
  match l with
  | [] => acc
  | b :: t =>
    if beqb acc Linear || beqb b Linear then Linear else lub_list (bunion acc b) t
  end.
Definition lub_of (l : list bnd) : bnd := lub_list Copyable l.

(** types.rs:332-355 [TypeEnum], 403 [TypeBase]; type_param.rs:70-152 [Term].
    [KNat None] is the maximal bound. *)
Inductive ty :=
| TExt (ext id : N) (args : list term) (b : bnd)
| TAlias (name : N) (b : bnd)
| TFun (ins outs : list ty)
| TVar (i : nat) (b : bnd)
| TRow (i : nat) (b : bnd)
| TSum (rows : list (list ty)) (cached : bnd)
with term :=
| KType (b : bnd)
| KStatic
| KNat (bound : option N)
| KString
| KBytes
| KFloat
| KList (item : term)
| KTuple (items : term)
| KConst (t : ty)
| MType (t : ty)
| MNat (n : N)
| MString (s : list N)
| MBytes (s : list N)
| MFloat (n : N)
| MList (l : list term)
| MListConcat (l : list term)
| MTuple (l : list term)
| MTupleConcat (l : list term)
| MVar (i : nat) (decl : term).

(** types.rs:504-506 [least_upper_bound]: reads the cache. *)
Definition lub (t : ty) : bnd :=
  match t with
  | TExt _ _ _ b | TAlias _ b | TVar _ b | TRow _ b | TSum _ b => b
  | TFun _ _ => Copyable
  end.

(** types.rs:538-540 [copyable]. *)
Definition copyable (t : ty) : bool := bcontains Copyable (lub t).

(** types.rs:224-238, 460-466, 481-484 [SumType::new], [new_sum], [new]. *)
Definition new_sum (rows : list (list ty)) : ty :=
  TSum rows (lub_of (map lub (concat rows))).

(** Derived and written equality ([PartialEq] for types and terms). *)
Section ListEqb.
  Context {A : Type} (f : A -> A -> bool).
  Fixpoint list_eqb (l m : list A) : bool :=
    match l, m with
    | [], [] => true
    | x :: l', y :: m' => f x y && list_eqb l' m'
    | _, _ => false
    end.
End ListEqb.

Definition optN_eqb (a b : option N) : bool :=
  match a, b with
  | None, None => true
  | Some x, Some y => N.eqb x y
  | _, _ => false
  end.

Fixpoint ty_eqb (a b : ty) {struct a} : bool :=
  match a, b with
  | TExt e i args bd, TExt e' i' args' bd' =>
    N.eqb e e' && N.eqb i i' && list_eqb term_eqb args args' && beqb bd bd'
  | TAlias n bd, TAlias n' bd' => N.eqb n n' && beqb bd bd'
  | TFun x y, TFun x' y' => list_eqb ty_eqb x x' && list_eqb ty_eqb y y'
  | TVar i bd, TVar i' bd' => Nat.eqb i i' && beqb bd bd'
  | TRow i bd, TRow i' bd' => Nat.eqb i i' && beqb bd bd'
  | TSum r bd, TSum r' bd' => list_eqb (list_eqb ty_eqb) r r' && beqb bd bd'
  | _, _ => false
  end
with term_eqb (a b : term) {struct a} : bool :=
  match a, b with
  | KType x, KType y => beqb x y
  | KStatic, KStatic | KString, KString | KBytes, KBytes | KFloat, KFloat => true
  | KNat x, KNat y => optN_eqb x y
  | KList x, KList y => term_eqb x y
  | KTuple x, KTuple y => term_eqb x y
  | KConst x, KConst y => ty_eqb x y
  | MType x, MType y => ty_eqb x y
  | MNat x, MNat y => N.eqb x y
  | MString x, MString y => list_eqb N.eqb x y
  | MBytes x, MBytes y => list_eqb N.eqb x y
  | MFloat x, MFloat y => N.eqb x y
  | MList x, MList y => list_eqb term_eqb x y
  | MListConcat x, MListConcat y => list_eqb term_eqb x y
  | MTuple x, MTuple y => list_eqb term_eqb x y
  | MTupleConcat x, MTupleConcat y => list_eqb term_eqb x y
  | MVar i x, MVar j y => Nat.eqb i j && term_eqb x y
  | _, _ => false
  end.

(** type_param.rs:31-48 [UpperBound]; the inner value is non-zero. *)
Definition ub_valid (bound : option N) (v : N) : bool :=
  N.eqb v 0 || match bound with None => true | Some b => N.ltb v b end.
Definition ub_contains (a b : option N) : bool :=
  match a, b with
  | None, _ => true
  | Some x, Some y => N.leb y x
  | Some _, None => false
  end.

(** type_param.rs:193-218 [is_supertype]. *)
Fixpoint is_supertype (a b : term) {struct a} : bool :=
  match a, b with
  | KType x, KType y => bcontains x y
  | KNat x, KNat y => ub_contains x y
  | KString, KString | KStatic, KStatic | KBytes, KBytes | KFloat, KFloat => true
  | KList x, KList y => is_supertype x y
  | KTuple x, KTuple y => is_supertype x y
  | MType x, MType y => ty_eqb x y
  | MNat x, MNat y => N.eqb x y
  | MString x, MString y => list_eqb N.eqb x y
  | MBytes x, MBytes y => list_eqb N.eqb x y
  | MFloat x, MFloat y => N.eqb x y
  | MVar i x, MVar j y => Nat.eqb i j && term_eqb x y
  | MList x, MList y => list_eqb is_supertype x y
  | MTuple x, MTuple y => list_eqb is_supertype x y
  | _, _ => false
  end.

(** type_param.rs:628-635 [bound_if_row_var], on the declaration. *)
Definition row_bound (decl : term) : option bnd :=
  match decl with KList (KType b) => Some b | _ => None end.

(** type_param.rs:757-838 [SeqPart], [ListPartIter], [TuplePartIter]. *)
Inductive part (A : Type) := Item (a : A) | Splice (a : A).
Arguments Item {A} a.
Arguments Splice {A} a.

Fixpoint list_parts (t : term) : list (part term) :=
  match t with
  | MList l => map Item l
  | MListConcat l => flat_map list_parts l
  | _ => [Splice t]
  end.

Fixpoint tuple_parts (t : term) : list (part term) :=
  match t with
  | MTuple l => map Item l
  | MTupleConcat l => flat_map tuple_parts l
  | _ => [Splice t]
  end.

(** type_param.rs:639-713 [check_term_type]: [true] is [Ok].  Items of tuples carry their check. *)
Fixpoint check_zip (terms : list (part (term -> bool))) (types : list (part term)) : bool :=
  match terms, types with
  | [], [] => true
  | [], _ :: _ | _ :: _, [] => false
  | Item f :: ts, Item k :: ks => f k && check_zip ts ks
  | _ :: _, _ :: _ => true
  end.

Fixpoint check_term (t k : term) {struct t} : bool :=
  match t with
  | MVar _ decl => is_supertype k decl
  | MType x => match k with KType b => bcontains b (lub x) | _ => false end
  | MList l =>
    match k with
    | KList item =>
      forallb (fun e =>
        match e, item with
        | MVar _ decl, KType pb =>
          match row_bound decl with
          | Some ab => bcontains pb ab || check_term e item
          | None => check_term e item
          end
        | _, _ => check_term e item
        end) l
    | _ => false
    end
  | MListConcat l =>
    match k with KList item => forallb (fun e => check_term e item) l | _ => false end
  | MTuple l =>
    match k with
    | KTuple items => check_zip (map (fun e => Item (check_term e)) l) (list_parts items)
    | _ => false
    end
  | MTupleConcat l =>
    match k with
    | KTuple items => check_zip (flat_map check_parts l) (list_parts items)
    | _ => false
    end
  | MNat n => match k with KNat b => ub_valid b n | _ => false end
  | MString _ => match k with KString => true | _ => false end
  | MBytes _ => match k with KBytes => true | _ => false end
  | MFloat _ => match k with KFloat => true | _ => false end
  | KStatic | KString | KBytes | KNat _ | KFloat | KList _ | KTuple _ | KType _ | KConst _ =>
    match k with KStatic => true | _ => false end
  end
with check_parts (t : term) {struct t} : list (part (term -> bool)) :=
  match t with
  | MTuple l => map (fun e => Item (check_term e)) l
  | MTupleConcat l => flat_map check_parts l
  | _ => [Splice (fun _ => true)]
  end.

(** type_param.rs:716-724 [check_term_types]. *)
Definition check_terms (ts ks : list term) : bool := list_eqb check_term ts ks.

(** ** Type definitions *)
(** extension/type_def.rs:19-30 [TypeDefBound]. *)
Inductive dbound := DExplicit (b : bnd) | DFromParams (indices : list nat).

(** extension/type_def.rs:60-77 [TypeDef]. *)
Record typedef := { td_params : list term; td_bound : dbound }.

Definition all_some {A} (l : list (option A)) : option (list A) :=
  fold_right (fun x acc =>
    match x, acc with Some a, Some b => Some (a :: b) | _, _ => None end) (Some []) l.

(** extension/type_def.rs:138-158 [TypeDef::bound]; [None] is the panic.  (The fold stops at the
    first linear bound, so a later index that is not a type goes unnoticed.) *)
Fixpoint def_lub (args : list term) (acc : bnd) (indices : list nat) : option bnd :=
  match indices with
  | [] => Some acc
  | i :: rest =>
    match nth_error args i with
    | Some (MType t) =>
      if beqb acc Linear || beqb (lub t) Linear then Some Linear
      else def_lub args (bunion acc (lub t)) rest
    | _ => None
    end
  end.
Definition def_bound (d : typedef) (args : list term) : option bnd :=
  match td_bound d with
  | DExplicit b => Some b
  | DFromParams [] => Some Linear
  | DFromParams is => def_lub args Copyable is
  end.

Section Env.
  (** The extensions in scope: type definitions by extension and name. *)
  Variable env : N -> N -> option typedef.

  (** ** Validation *)
  (** types.rs:828-850 [check_typevar_decl]. *)
  Definition check_decl (decls : list term) (i : nat) (cached : term) : bool :=
    match nth_error decls i with None => false | Some actual => term_eqb actual cached end.

  (** types.rs:551-569 [TypeBase::validate], type_row.rs:100-102, signature.rs:110-113,
      custom.rs:81-88 with type_def.rs:91-118 [check_custom], type_param.rs:356-389
      [Term::validate].  [true] is [Ok]; an error or a panic is [false]. *)
  Fixpoint valid_ty (decls : list term) (t : ty) {struct t} : bool :=
    match t with
    | TExt e i args b =>
      forallb (valid_term decls) args &&
      match env e i with
      | None => false
      | Some d =>
        check_terms args (td_params d) &&
        match def_bound d args with None => false | Some b' => beqb b' b end
      end
    | TAlias _ _ => true
    | TFun ins outs => forallb (valid_ty decls) ins && forallb (valid_ty decls) outs
    | TVar i b => check_decl decls i (KType b)
    | TRow i b => check_decl decls i (KList (KType b))
    | TSum rows _ => forallb (forallb (valid_ty decls)) rows
    end
  with valid_term (decls : list term) (t : term) {struct t} : bool :=
    match t with
    | MType x => valid_ty decls x
    | MList l | MTuple l | MListConcat l | MTupleConcat l => forallb (valid_term decls) l
    | MVar i decl =>
      match decl with KType _ => false | _ => check_decl decls i decl end
    | KList x | KTuple x => valid_term decls x
    | KConst x => valid_ty decls x
    | _ => true
    end.

  (** ** Substitution *)
  (** type_param.rs:456-484 [new_seq_from_parts], for parts already split. *)
  Fixpoint seq_from (mk mkc : list term -> term) (items seqs : list term) (ps : list (part term)) : term :=
    match ps with
    | [] =>
      match seqs with
      | [] => mk items
      | _ => match items with [] => mkc seqs | _ => mkc (seqs ++ [mk items]) end
      end
    | Item t :: r => seq_from mk mkc (items ++ [t]) seqs r
    | Splice t :: r =>
      seq_from mk mkc [] (match items with [] => seqs ++ [t] | _ => seqs ++ [mk items; t] end) r
    end.

  (** type_param.rs:487-493 [new_list_from_parts], 575-581 [new_tuple_from_parts]. *)
  Definition list_from_parts (ps : list (part term)) : term :=
    seq_from MList MListConcat [] []
      (flat_map (fun p => match p with Splice t => list_parts t | Item t => [Item t] end) ps).
  Definition tuple_from_parts (ps : list (part term)) : term :=
    seq_from MTuple MTupleConcat [] []
      (flat_map (fun p => match p with Splice t => tuple_parts t | Item t => [Item t] end) ps).

  (** type_param.rs:407-413 [is_type]. *)
  Definition is_type (t : term) : bool :=
    match t with
    | MType _ => true
    | MVar _ decl => match row_bound decl with Some _ => true | None => false end
    | _ => false
    end.

  (** types.rs:749-775 [apply_rowvar]; [None] is a panic. *)
  Definition rowvar_elem (t : term) : option ty :=
    match t with
    | MType x => Some x
    | MVar i decl => match row_bound decl with Some b => Some (TRow i b) | None => None end
    | _ => None
    end.
  Definition apply_rowvar (s : list term) (i : nat) : option (list ty) :=
    match nth_error s i with
    | Some (MList l) => all_some (map rowvar_elem l)
    | Some (MType (TRow j b)) => Some [TRow j b]
    | _ => None
    end.

  (** A part of a substituted list (type_param.rs:417-421). *)
  Definition list_elem_part (are_types : bool) (t : term) : part term :=
    match t with
    | MList _ | MListConcat _ => if are_types then Splice t else Item t
    | _ => Item t
    end.

  (** types.rs:575-592 [TypeBase::substitute], 642-646 [substitute1], type_row.rs:77-84,
      signature.rs:59-64, custom.rs:110-128, type_param.rs:391-452 [Term::substitute].
      [None] is a panic. *)
  Fixpoint subst_ty (s : list term) (t : ty) {struct t} : option (list ty) :=
    match t with
    | TRow i _ => apply_rowvar s i
    | TAlias _ _ => Some [t]
    | TVar i _ => match nth_error s i with Some (MType x) => Some [x] | _ => None end
    | TExt e i args _ =>
      match all_some (map (subst_term s) args) with
      | None => None
      | Some args' =>
        match env e i with
        | None => None
        | Some d =>
          match def_bound d args' with None => None | Some b => Some [TExt e i args' b] end
        end
      end
    | TFun ins outs =>
      match all_some (map (subst_ty s) ins), all_some (map (subst_ty s) outs) with
      | Some x, Some y => Some [TFun (concat x) (concat y)]
      | _, _ => None
      end
    | TSum rows _ =>
      match all_some (map (fun row => option_map (@concat ty) (all_some (map (subst_ty s) row))) rows) with
      | None => None
      | Some rows' => Some [new_sum rows']
      end
    end
  with subst_term (s : list term) (t : term) {struct t} : option term :=
    match t with
    | MType x => match subst_ty s x with Some [y] => Some (MType y) | _ => None end
    | MNat _ | MString _ | MBytes _ | MFloat _ => Some t
    | MList l =>
      let are_types := match l with [] => false | e :: _ => is_type e end in
      option_map (fun l' => list_from_parts (map (list_elem_part are_types) l'))
                 (all_some (map (subst_term s) l))
    | MListConcat l =>
      option_map (fun l' => list_from_parts (map Splice l')) (all_some (map (subst_term s) l))
    | MTuple l => option_map MTuple (all_some (map (subst_term s) l))
    | MTupleConcat l =>
      option_map (fun l' => tuple_from_parts (map Splice l')) (all_some (map (subst_term s) l))
    | MVar i _ => nth_error s i
    | KType _ | KNat _ | KString | KBytes | KFloat | KStatic => Some t
    | KList x => option_map KList (subst_term s x)
    | KTuple x => option_map KList (subst_term s x)
    | KConst x => match subst_ty s x with Some [y] => Some (KConst y) | _ => None end
    end.

  (** type_row.rs:77-84 [TypeRowBase::substitute]. *)
  Definition subst_row (s : list term) (r : list ty) : option (list ty) :=
    option_map (@concat ty) (all_some (map (subst_ty s) r)).

  (** ** Polymorphic function types *)
  (** poly_func.rs:31-45 [PolyFuncTypeBase]; signature.rs [FuncTypeBase]. *)
  Record poly := { p_params : list term; p_ins : list ty; p_outs : list ty }.

  Inductive outcome (A : Type) := Done (a : A) | Rejected | Panics.
  Arguments Done {A} a.
  Arguments Rejected {A}.
  Arguments Panics {A}.

  (** poly_func.rs:123-128 [instantiate]. *)
  Definition instantiate (p : poly) (args : list term) : outcome (list ty * list ty) :=
    if check_terms args (p_params p) then
      match subst_row args (p_ins p), subst_row args (p_outs p) with
      | Some x, Some y => Done (x, y)
      | _, _ => Panics
      end
    else Rejected.

  (** poly_func.rs:132-134 [validate]. *)
  Definition poly_valid (p : poly) : bool :=
    forallb (valid_ty (p_params p)) (p_ins p) && forallb (valid_ty (p_params p)) (p_outs p).

  (** types.rs:498-500 [new_var_use], type_param.rs:290-301 [Term::new_var_use]. *)
  Definition new_var_use (i : nat) (decl : term) : term :=
    match decl with KType b => MType (TVar i b) | _ => MVar i decl end.
  (** ** Transformation *)
  (** types.rs:818-826 [Transformable] for slices. *)
  Section TrSeq.
    Context {A : Type} (f : A -> option (A * bool)).
    Fixpoint tr_seq (l : list A) : option (list A * bool) :=
      match l with
      | [] => Some ([], false)
      | x :: r =>
        match f x with
        | None => None
        | Some (x', c) =>
          match tr_seq r with None => None | Some (r', c') => Some (x' :: r', c || c') end
        end
      end.
  End TrSeq.

  (** types.rs:611-639 and 312-319, type_row.rs:106-108, signature.rs:131-134,
      type_param.rs:593-616 [transform], with the replacement of extension types given by
      [tr] ([apply_custom], types.rs:800).  [None] is an error; the flag says whether anything may
      have changed. *)
  Fixpoint transform_ty (tr : N -> N -> list term -> bnd -> option (option ty)) (t : ty) {struct t}
    : option (ty * bool) :=
    match t with
    | TAlias _ _ | TRow _ _ | TVar _ _ => Some (t, false)
    | TExt e i args b =>
      match tr e i args b with
      | None => None
      | Some (Some nt) => Some (nt, true)
      | Some None =>
        match tr_seq (transform_term tr) args with
        | None => None
        | Some (args', false) => Some (TExt e i args' b, false)
        | Some (args', true) =>
          match env e i with
          | None => None
          | Some d =>
            if check_terms args' (td_params d) then
              match def_bound d args' with
              | None => None
              | Some b' => Some (TExt e i args' b', true)
              end
            else None
          end
        end
      end
    | TFun x y =>
      match tr_seq (transform_ty tr) x with
      | None => None
      | Some (x', c) =>
        match tr_seq (transform_ty tr) y with
        | None => None
        | Some (y', c') => Some (TFun x' y', c || c')
        end
      end
    | TSum rows _ =>
      match tr_seq (tr_seq (transform_ty tr)) rows with
      | None => None
      | Some (rows', c) => Some (TSum rows' (lub_of (map lub (concat rows'))), c)
      end
    end
  with transform_term (tr : N -> N -> list term -> bnd -> option (option ty)) (t : term) {struct t}
    : option (term * bool) :=
    match t with
    | MType x => option_map (fun p => (MType (fst p), snd p)) (transform_ty tr x)
    | MList l => option_map (fun p => (MList (fst p), snd p)) (tr_seq (transform_term tr) l)
    | MTuple l => option_map (fun p => (MTuple (fst p), snd p)) (tr_seq (transform_term tr) l)
    | MListConcat l =>
      option_map (fun p => (MListConcat (fst p), snd p)) (tr_seq (transform_term tr) l)
    | MTupleConcat l =>
      option_map (fun p => (MTupleConcat (fst p), snd p)) (tr_seq (transform_term tr) l)
    | KList x => option_map (fun p => (KList (fst p), snd p)) (transform_term tr x)
    | KTuple x => option_map (fun p => (KTuple (fst p), snd p)) (transform_term tr x)
    | KConst x => option_map (fun p => (KConst (fst p), snd p)) (transform_ty tr x)
    | _ => Some (t, false)
    end.
End Env.
Arguments Done {A} a.
Arguments Rejected {A}.
Arguments Panics {A}.
