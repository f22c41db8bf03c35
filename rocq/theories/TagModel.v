(** Model of operation tags. Source: hugr-core/src/ops/tag.rs. *)
From Coq Require Import List Bool NArith.
Import ListNotations.

(** l.13-75: [enum OpTag], in declaration order. *)
Inductive tag : Type :=
| TAny | TNone
| TModuleOp | TModuleRoot | TFunction | TAlias | TConst | TFuncDefn
| TControlFlowChild | TDataflowChild | TDataflowParent
| TDfg | TCfg | TInput | TOutput | TStaticInput | TStaticOutput
| TFnCall | TLoadConst | TLoadFunc | TScopedDefn | TTailLoop | TConditional | TCase | TLeaf
| TDataflowBlock | TBasicBlockExit.

(** Discriminants: position in the declaration. *)
Definition tag_discr (t : tag) : N :=
  match t with
  | TAny => 0 | TNone => 1 | TModuleOp => 2 | TModuleRoot => 3 | TFunction => 4 | TAlias => 5
  | TConst => 6 | TFuncDefn => 7 | TControlFlowChild => 8 | TDataflowChild => 9
  | TDataflowParent => 10 | TDfg => 11 | TCfg => 12 | TInput => 13 | TOutput => 14
  | TStaticInput => 15 | TStaticOutput => 16 | TFnCall => 17 | TLoadConst => 18 | TLoadFunc => 19
  | TScopedDefn => 20 | TTailLoop => 21 | TConditional => 22 | TCase => 23 | TLeaf => 24
  | TDataflowBlock => 25 | TBasicBlockExit => 26
  end.

(** l.191-195: [eq], comparison of discriminants. *)
Definition tag_eqb (a b : tag) : bool := N.eqb (tag_discr a) (tag_discr b).

(** l.107-144. *)
Definition immediate_supersets (t : tag) : list tag :=
  match t with
  | TAny => []
  | TNone => [TAny]
  | TModuleOp => [TAny]
  | TControlFlowChild => [TAny]
  | TDataflowChild => [TAny]
  | TInput => [TDataflowChild]
  | TOutput => [TDataflowChild]
  | TFunction => [TModuleOp; TStaticOutput]
  | TAlias => [TModuleOp]
  | TFuncDefn => [TFunction; TDataflowParent]
  | TDataflowBlock => [TControlFlowChild; TDataflowParent]
  | TBasicBlockExit => [TControlFlowChild]
  | TCase => [TAny; TDataflowParent]
  | TModuleRoot => [TAny]
  | TConst => [TScopedDefn; TStaticOutput]
  | TDfg => [TDataflowChild; TDataflowParent]
  | TCfg => [TDataflowChild]
  | TScopedDefn => [TDataflowChild; TControlFlowChild; TModuleOp]
  | TTailLoop => [TDataflowChild; TDataflowParent]
  | TConditional => [TDataflowChild]
  | TStaticInput => [TAny]
  | TStaticOutput => [TAny]
  | TFnCall => [TStaticInput; TDataflowChild]
  | TLoadConst => [TStaticInput; TDataflowChild]
  | TLoadFunc => [TStaticInput; TDataflowChild]
  | TLeaf => [TDataflowChild]
  | TDataflowParent => [TAny]
  end.

(** l.81-97: [is_superset]. The source recurses through parents without a bound; here with
    fuel, [None] when exhausted (shown never to happen with fuel 4). *)
Fixpoint is_superset_fuel (fuel : nat) (self other : tag) : option bool :=
  match fuel with
  | O => None
  | S fuel' =>
      if tag_eqb self other then Some true
      else (fix any (ps : list tag) : option bool :=
              match ps with
              | [] => Some false
              | p :: ps' =>
                  match is_superset_fuel fuel' self p with
                  | Some true => Some true
                  | Some false => any ps'
                  | None => None
                  end
              end) (immediate_supersets other)
  end.
Definition is_superset (self other : tag) : option bool := is_superset_fuel 4 self other.

(** l.204-216: [partial_cmp]; the outer option is fuel. *)
Definition tag_partial_cmp (a b : tag) : option (option comparison) :=
  if tag_eqb a b then Some (Some Eq)
  else match is_superset a b with
       | Some true => Some (Some Gt)
       | Some false =>
           match is_superset b a with
           | Some true => Some (Some Lt)
           | Some false => Some None
           | None => None
           end
       | None => None
       end.
