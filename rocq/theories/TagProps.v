(** C08: operation tags. *)
From Coq Require Import List.
From Verif Require Import TagModel TagSpec TagProofs.
Import ListNotations.

(** The recursion always terminates with an answer. *)
Theorem tag_superset_total : forall a b, exists r, is_superset a b = Some r.
Proof. exact superset_total. Qed.
Print Assumptions tag_superset_total.

Theorem tag_superset_partial_order :
  (forall a, is_superset a a = Some true) /\
  (forall a b c, is_superset a b = Some true -> is_superset b c = Some true ->
                 is_superset a c = Some true) /\
  (forall a b, is_superset a b = Some true -> is_superset b a = Some true -> a = b).
Proof. exact superset_order. Qed.
Print Assumptions tag_superset_partial_order.

(** It is exactly the reflexive-transitive closure of the declared parents. *)
Theorem tag_superset_is_closure : forall a b, is_superset a b = Some true <-> below b a.
Proof. exact superset_iff_below. Qed.
Print Assumptions tag_superset_is_closure.

Theorem tag_any_greatest : forall a, is_superset TAny a = Some true.
Proof. exact any_greatest. Qed.
Print Assumptions tag_any_greatest.

(** The empty tag contains only itself and is contained only in itself and the universal tag. *)
Theorem tag_none_isolated :
  (forall a, is_superset TNone a = Some true -> a = TNone) /\
  (forall a, is_superset a TNone = Some true <-> a = TNone \/ a = TAny).
Proof. exact (conj none_minimal none_only_below). Qed.
Print Assumptions tag_none_isolated.

(** The ordering operators agree with inclusion. *)
Theorem tag_partial_cmp_consistent : forall a b,
  (tag_partial_cmp a b = Some (Some Eq) <-> a = b) /\
  (tag_partial_cmp a b = Some (Some Gt) <-> below b a /\ a <> b) /\
  (tag_partial_cmp a b = Some (Some Lt) <-> below a b /\ a <> b) /\
  (tag_partial_cmp a b = Some None <-> ~ below a b /\ ~ below b a).
Proof. exact cmp_consistent. Qed.
Print Assumptions tag_partial_cmp_consistent.

(** The documented reading of the declarations ("no tag strictly in between") fails for the
    declaration of [Any] as a parent of [Case], and only there. *)
Theorem tag_immediate_refuted : exists t r, declared t r /\ ~ covers r t.
Proof. exact (ex_intro _ TCase (ex_intro _ TAny covers_refuted)). Qed.
Print Assumptions tag_immediate_refuted.

Theorem tag_immediate_otherwise : forall t r,
  declared t r -> (t, r) <> (TCase, TAny) -> covers r t.
Proof. exact declared_covers. Qed.
Print Assumptions tag_immediate_otherwise.

(** The members of every category, as a table independent of the declared parents. *)
Definition members (c : tag) : list tag :=
  match c with
  | TModuleOp => [TModuleOp; TFunction; TFuncDefn; TAlias; TScopedDefn; TConst]
  | TDataflowChild => [TDataflowChild; TInput; TOutput; TDfg; TCfg; TTailLoop; TConditional; TFnCall; TLoadConst; TLoadFunc;
                       TLeaf; TScopedDefn; TConst]
  | TControlFlowChild => [TControlFlowChild; TDataflowBlock; TBasicBlockExit; TScopedDefn; TConst]
  | TDataflowParent => [TDataflowParent; TFuncDefn; TDataflowBlock; TCase; TDfg; TTailLoop]
  | TStaticInput => [TStaticInput; TFnCall; TLoadConst; TLoadFunc]
  | TStaticOutput => [TStaticOutput; TFunction; TFuncDefn; TConst]
  | TFunction => [TFunction; TFuncDefn]
  | TScopedDefn => [TScopedDefn; TConst]
  | _ => [c]
  end.

Theorem tag_categories : forall c t, c <> TAny -> (is_superset c t = Some true <-> In t (members c)).
Proof.
  intros c t A. split.
  - destruct c; try congruence; destruct t; vm_compute; intuition congruence.
  - intros I. destruct c; try congruence; cbn in I; repeat (destruct I as [<-|I]; [reflexivity|]); destruct I.
Qed.
Print Assumptions tag_categories.

Example tag_nonvacuous :
  is_superset TDataflowChild TConst = Some true /\ is_superset TDataflowParent TCfg = Some false /\
  tag_partial_cmp TDataflowParent TDataflowChild = Some None.
Proof. repeat split. Qed.
