(** Information order and meaning of abstract dataflow values. *)
From Coq Require Import List Bool NArith Arith Sorted.
From Verif Require Import PValModel.
Import ListNotations.

Section Spec.
  Context {V N A : Type}.
  Notation pv := (pv V N A).

  (** [x] is at most as vague as [y]. *)
  Inductive le : pv -> pv -> Prop :=
  | le_bot y : le Bottom y
  | le_top x : le x Top
  | le_val v : le (Val v) (Val v)
  | le_fun n a : le (LF n a) (LF n a)
  | le_sum m1 m2 :
      (forall k r1, In (k, r1) m1 -> exists r2, In (k, r2) m2 /\ Forall2 le r1 r2) ->
      le (PSum m1) (PSum m2).

  (** Representation invariant: sums have at least one possible tag, each listed once. *)
  Inductive wf : pv -> Prop :=
  | wf_bot : wf Bottom
  | wf_top : wf Top
  | wf_val v : wf (Val v)
  | wf_fun n a : wf (LF n a)
  | wf_sum m : m <> [] -> StronglySorted (fun a b => N.compare (fst a) (fst b) = Lt) m ->
      (forall k r v, In (k, r) m -> In v r -> wf v) -> wf (PSum m).

  (** All loaded functions carry the type arguments fixed for their node. *)
  Inductive args_by_node (f : N -> A) : pv -> Prop :=
  | abn_bot : args_by_node f Bottom
  | abn_top : args_by_node f Top
  | abn_val v : args_by_node f (Val v)
  | abn_fun n : args_by_node f (LF n (f n))
  | abn_sum m : (forall k r v, In (k, r) m -> In v r -> args_by_node f v) -> args_by_node f (PSum m).

  (** Types: leaf values, function pointers, sums of rows. *)
  Inductive ty := TyVal | TyFun | TySum (rows : list (list ty)).
  Inductive typed : ty -> pv -> Prop :=
  | ty_bot t : typed t Bottom
  | ty_top t : typed t Top
  | ty_val v : typed TyVal (Val v)
  | ty_fun n a : typed TyFun (LF n a)
  | ty_sum rows m :
      (forall k r, In (k, r) m -> exists ts, nth_error rows (N.to_nat k) = Some ts /\ Forall2 typed ts r) ->
      typed (TySum rows) (PSum m).

  (** Concrete values and what an abstract value describes. *)
  Inductive conc := CVal (v : V) | CFun (n : N) (a : A) | CSum (k : BinNums.N) (cs : list conc).
  Inductive describes : pv -> conc -> Prop :=
  | d_top c : describes Top c
  | d_val v : describes (Val v) (CVal v)
  | d_fun n a : describes (LF n a) (CFun n a)
  | d_sum m k r cs : In (k, r) m -> Forall2 describes r cs -> describes (PSum m) (CSum k cs).

  (** The constant built from a concrete value seen at a type, given how leaves and sums are built. *)
  Section Build.
    Context {C : Type} (from_value : V -> option C) (from_func : N -> A -> option C)
            (from_sum : BinNums.N -> list C -> list (list vty) -> option C).
    Inductive builds : vty -> conc -> C -> Prop :=
    | b_val t v r : from_value v = Some r -> builds t (CVal v) r
    | b_fun t n a r : from_func n a = Some r -> builds t (CFun n a) r
    | b_sum rows k ts cs rs r :
        nth_error rows (N.to_nat k) = Some ts -> length ts = length cs ->
        builds_row ts cs rs -> from_sum k rs rows = Some r -> builds (TSum rows) (CSum k cs) r
    with builds_row : list vty -> list conc -> list C -> Prop :=
    | b_nil : builds_row [] [] []
    | b_cons t ts c cs r rs : builds t c r -> builds_row ts cs rs -> builds_row (t :: ts) (c :: cs) (r :: rs).
  End Build.

  (** The abstract value describing exactly [c]. *)
  Fixpoint exactly (c : conc) : pv :=
    match c with
    | CVal v => Val v
    | CFun n a => LF n a
    | CSum k cs => PSum [(k, map exactly cs)]
    end.

  Definition is_lub (x y j : pv) : Prop :=
    le x j /\ le y j /\ forall z, wf z -> le x z -> le y z -> le j z.
  Definition is_glb (x y g : pv) : Prop :=
    le g x /\ le g y /\ forall z, wf z -> le z x -> le z y -> le z g.
End Spec.
Arguments conc : clear implicits.
