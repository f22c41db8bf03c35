(** C14, C15, C16: the scope tables of the text/module resolver. *)
From Coq Require Import List Bool NArith Arith Lia String.
From Verif Require Import ScopeModel ScopeSpec ScopeProofs ScopeSymProofs.
Import ListNotations.

(** C14: every history of calls gets the answers of a stack of frames, up to the first call
    that breaks the caller discipline (opening an owner already open; 2^16 variables). *)
Theorem var_table_is_scope_stack : forall (K : Type) (keq : forall a b : K, {a = b} + {a <> b}) ops,
  follows v_ok_op v_answers v_misuse [] ops (trace (vt_step keq) vt_new ops).
Proof. intros. apply var_follows. Qed.
Print Assumptions var_table_is_scope_stack.




(** C15: likewise for links, with the link and port counts reported on leaving a region. *)
Theorem link_table_is_scope_stack : forall (K : Type) (keq : forall a b : K, {a = b} + {a <> b}) ops,
  follows l_ok_op l_answers l_misuse [] ops (trace (lt_step keq) lt_new ops).
Proof. intros. apply link_follows. Qed.
Print Assumptions link_table_is_scope_stack.

(** C16: symbol resolution, duplicates, shadowing and restoring, region depths; positive
    visibility answers are right. *)
Theorem symbol_table_is_scope_stack_partial : forall (K : Type) (keq : forall a b : K, {a = b} + {a <> b}) ops,
  follows s_ok_op (s_answers visible_sound) s_misuse [] ops (trace (st_step keq) st_new ops).
Proof. intros. apply sym_follows. Qed.
Print Assumptions symbol_table_is_scope_stack_partial.

(** C16: without shadowing, visibility answers are exact. *)
Theorem symbol_table_exact_without_shadowing : forall (K : Type) (keq : forall a b : K, {a = b} + {a <> b}) ops,
  follows s_ok_noshadow (s_answers visible_exact) s_misuse [] ops (trace (st_step keq) st_new ops).
Proof. intros. apply sym_follows_no_shadow. Qed.
Print Assumptions symbol_table_exact_without_shadowing.

(** C16 as stated is false: a shadowing binding is what its name resolves to and yet is
    reported invisible. *)
Definition shadow_history : list (sym_op (K:=string)) :=
  [SEnter 0%N; SInsert "a"%string 10%N; SEnter 1%N; SInsert "a"%string 11%N;
   SResolve "a"%string; SVisible 11%N].

Example shadow_answers : trace (st_step string_dec) st_new shadow_history
  = ([SUnit; SUnit; SUnit; SUnit; SNode 11%N; SBool false], false).
Proof. reflexivity. Qed.

Theorem symbol_table_visibility_refuted : exists ops,
  ~ follows s_ok_op (s_answers visible_exact) s_misuse [] ops (trace (st_step string_dec) st_new ops).
Proof.
  exists shadow_history. rewrite shadow_answers. unfold shadow_history. intros H.
  inversion H; subst; clear H.
  { match goal with X : ~ _ |- _ => apply X end. cbn. split; [tauto|lia]. }
  match goal with X : s_answers _ _ _ _ _ |- _ => inversion X; subst; clear X end.
  match goal with X : follows _ _ _ _ _ _ |- _ => inversion X; subst; clear X end.
  { match goal with X : ~ s_ok_op _ (SInsert _ _) |- _ => apply X end.
    cbn. intros k (f & [<-|[]] & []). }
  match goal with X : s_answers _ _ (SInsert _ _) _ _ |- _ => inversion X; subst; clear X end.
  match goal with X : follows _ _ _ _ _ _ |- _ => inversion X; subst; clear X end.
  { match goal with X : ~ s_ok_op _ (SEnter 1%N) |- _ => apply X end.
    cbn. split; [intros [?|[]]; discriminate|lia]. }
  match goal with X : s_answers _ _ (SEnter 1%N) _ _ |- _ => inversion X; subst; clear X end.
  match goal with X : follows _ _ _ _ _ _ |- _ => inversion X; subst; clear X end.
  { match goal with X : ~ s_ok_op _ (SInsert _ 11%N) |- _ => apply X end.
    cbn. intros k (f & [<-|[<-|[]]] & Hf); cbn in Hf; [contradiction|].
    destruct Hf as [Hf|[]]. discriminate. }
  match goal with X : s_answers _ _ (SInsert _ 11%N) _ _ |- _ => inversion X; subst; clear X end.
  match goal with X : follows _ _ _ _ _ _ |- _ => inversion X; subst; clear X end.
  { match goal with X : ~ s_ok_op _ (SResolve _) |- _ => apply X end. exact I. }
  match goal with X : s_answers _ _ (SResolve _) _ _ |- _ => inversion X; subst; clear X end.
  match goal with X : follows _ _ _ _ _ _ |- _ => inversion X; subst; clear X end.
  { match goal with X : ~ s_ok_op _ (SVisible _) |- _ => apply X end. exact I. }
  match goal with X : s_answers _ _ (SVisible _) _ _ |- _ => inversion X; subst; clear X end.
  match goal with X : visible_exact _ _ _ |- _ => destruct X as [_ X]; discriminate X end.
  exists "a"%string. split; [exists (1%N, [] ++ [("a"%string, 11%N)]); cbn; auto | constructor; cbn; auto].
Qed.
Print Assumptions symbol_table_visibility_refuted.

(** ** Concrete histories *)
Example var_history : trace (vt_step string_dec) vt_new
  [VEnter 3%N; VInsert "x"; VInsert "y"; VEnter 5%N; VResolve "x"; VInsert "y"; VInsert "y"; VExit;
   VResolve "y"; VVisible 3 1; VExit; VResolve "y"; VExit]%string%N
  = ([VUnit; VId 3 0; VId 3 1; VUnit; VErrWithin 5 "x"; VId 5 0; VErrDup 5 "y"; VUnit;
      VId 3 1; VBool true; VUnit; VErrRoot "y"], true)%string%N.
Proof. reflexivity. Qed.

(** The discipline is needed: the same owner twice on the stack makes the inner resolve find the
    outer entry, and the index subtraction underflows. *)
Example var_same_owner_twice : trace (vt_step string_dec) vt_new
  [VEnter 3%N; VInsert "x"; VEnter 3%N; VResolve "x"]%string = ([VUnit; VId 3 0; VUnit]%N, true).
Proof. reflexivity. Qed.

Example link_history : trace (lt_step string_dec) lt_new
  [LEnter 0%N; LUse "a"; LUse "b"; LEnter 7%N; LUse "b"; LExit; LUse "b"; LExit]%string
  = ([LUnit; LIndex 0; LIndex 1; LUnit; LIndex 0; LCounts 1 1; LIndex 1; LCounts 2 3]%N, false).
Proof. reflexivity. Qed.

Example sym_history : trace (st_step string_dec) st_new
  [SEnter 0%N; SInsert "a" 10; SInsert "b" 20; SEnter 1; SInsert "a" 11; SInsert "a" 12; SResolve "a";
   SResolve "b"; SDepthRegion 1; SRegionDepth 0; SExit; SResolve "a"; SVisible 10; SResolve "c"]%string%N
  = ([SUnit; SUnit; SUnit; SUnit; SUnit; SErrDup "a" 12 11; SNode 11; SNode 20; SOptN (Some 1);
      SOptN (Some 0); SUnit; SNode 10; SBool true; SErrUnknown "c"], false)%string%N.
Proof. reflexivity. Qed.
