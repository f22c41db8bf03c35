(** Theorems about types, kinds and substitution (C17, C18, C19, C20, C42). *)
From Coq Require Import List Bool NArith Arith Lia.
From Verif Require Import TypesModel TypesSpec TypesProofs TypesSubst TypesTransform.
Import ListNotations.

(** A small extension for the examples: [usize] (0), [qubit] (1), [array] (2; a size and an element
    type, bound from the element), [bundle] (3; a list of rows), [grab] (4; a row of types). *)
Definition demo_env (e i : N) : option typedef :=
  match i with
  | 0%N => Some {| td_params := []; td_bound := DExplicit Copyable |}
  | 1%N => Some {| td_params := []; td_bound := DExplicit Linear |}
  | 2%N => Some {| td_params := [KNat None; KType Linear]; td_bound := DFromParams [1] |}
  | 3%N => Some {| td_params := [KList (KList (KType Linear))]; td_bound := DExplicit Linear |}
  | 4%N => Some {| td_params := [KList (KType Linear)]; td_bound := DExplicit Linear |}
  | _ => None
  end.
Definition usize : ty := TExt 0 0 [] Copyable.
Definition qubit : ty := TExt 0 1 [] Linear.
Definition array (n : term) (t : ty) (b : bnd) : ty := TExt 0 2 [n; MType t] b.

(** ** C17: instantiation and bounds *)
Theorem instantiation_bound : forall env decls args t l,
  check_terms args decls = true -> valid_ty env decls t = true -> cached_ty t ->
  subst_ty env args t = Some l ->
  forall r, In r l -> bcontains (lub t) (lub r) = true.
Proof. intros env decls args t l F V Ca E. exact (proj1 (subst_bound_both env decls args F) t V Ca l E). Qed.
Print Assumptions instantiation_bound.

Theorem instantiation_copyable : forall env decls args t l,
  check_terms args decls = true -> valid_ty env decls t = true -> cached_ty t -> copyable_ty t ->
  Forall cached_term args -> subst_ty env args t = Some l ->
  forall r, In r l -> copyable_ty r.
Proof.
  intros env decls args t l F V Ca C Fa E r I.
  pose proof (proj1 (subst_closed env _ _ cached_closed args Fa) t l E) as G. rewrite Forall_forall in G.
  apply (copyable_iff r (G r I)). apply (copyable_iff t Ca) in C.
  pose proof (instantiation_bound _ _ _ _ _ F V Ca E r I) as B. rewrite C in B. now apply bcontains_Copyable.
Qed.
Print Assumptions instantiation_copyable.

(** The bounds of the result are those of its components: copyable exactly if its parts are. *)
Theorem instantiation_bounds_from_components : forall env args t l,
  Forall cached_term args -> subst_ty env args t = Some l ->
  forall r, In r l -> cached_ty r /\ (copyable r = true <-> copyable_ty r).
Proof.
  intros env args t l Fa E r I.
  pose proof (proj1 (subst_closed env _ _ cached_closed args Fa) t l E) as G. rewrite Forall_forall in G.
  split; [exact (G r I)|]. unfold copyable. rewrite bcontains_Copyable. exact (copyable_iff r (G r I)).
Qed.
Print Assumptions instantiation_bounds_from_components.

(** An instantiated extension type has the bound its definition computes from the new arguments. *)
Theorem instantiation_extension_bound : forall env args e i ar b l,
  subst_ty env args (TExt e i ar b) = Some l ->
  exists d ar' b', env e i = Some d /\ l = [TExt e i ar' b'] /\ def_bound d ar' = Some b' /\
                   Forall2 (fun a a' => subst_term env args a = Some a') ar ar'.
Proof.
  intros env args e i ar b l. rewrite subst_ext_eq.
  destruct (all_some (map (subst_term env args) ar)) as [ar'|] eqn:E; [|discriminate].
  destruct (env e i) as [d|]; [|discriminate]. destruct (def_bound d ar') as [b'|] eqn:Eb; [|discriminate].
  intros X. injection X as <-. exists d, ar', b'. apply all_some_Forall2 in E. auto.
Qed.
Print Assumptions instantiation_extension_bound.

(** A definition that takes its bound from its parameters is copyable exactly if those are. *)
Theorem extension_bound_from_params : forall d args is,
  td_bound d = DFromParams is ->
  (def_bound d args = Some Copyable <->
   is <> [] /\ forall i, In i is -> exists t, nth_error args i = Some (MType t) /\ lub t = Copyable).
Proof.
  intros d args is E. unfold def_bound. rewrite E. destruct is as [|i is].
  - split; [discriminate|]. intros [H _]. congruence.
  - rewrite def_lub_Copyable. split; [intros [_ H]; split; [discriminate|exact H]|intros [_ H]; auto].
Qed.
Print Assumptions extension_bound_from_params.

Example bound_nonvacuous :
  (** An array of a linear variable becomes copyable with a copyable element; a sum over it too. *)
  let t := TSum [[array (MNat 3) (TVar 0 Linear) Linear]; [TFun [TRow 1 Linear] [qubit]]] Linear in
  let args := [MType usize; MList [MType qubit; MType usize]] in
  check_terms args [KType Linear; KList (KType Linear)] = true /\
  valid_ty demo_env [KType Linear; KList (KType Linear)] t = true /\
  subst_ty demo_env args t =
    Some [TSum [[array (MNat 3) usize Copyable]; [TFun [qubit; usize] [qubit]]] Copyable].
Proof. vm_compute. auto. Qed.

(** ** C18: substitution laws *)
(** Substituting every variable for itself, for types without row variables in the plain fragment
    (no concatenations, no tuple kinds). *)
Theorem substitution_identity_partial : forall env decls t,
  valid_ty env decls t = true -> cached_ty t -> plain_ty false t = true ->
  subst_ty env (identity_args decls) t = Some [t].
Proof. intros env decls. exact (proj1 (identity_both env decls)). Qed.
Print Assumptions substitution_identity_partial.

Theorem substitution_identity_term_partial : forall env decls t,
  valid_term env decls t = true -> cached_term t -> plain_term false t = true ->
  subst_term env (identity_args decls) t = Some t.
Proof. intros env decls. exact (proj2 (identity_both env decls)). Qed.
Print Assumptions substitution_identity_term_partial.

(** Two stages or one: the same type (plain fragment, row variables included). *)
Theorem substitution_stages_partial : forall env decls s1 s2 s12 t l1 l2,
  valid_ty env decls t = true -> plain_ty true t = true ->
  check_terms s1 decls = true ->
  Forall (fun a => plain_term true a = true) s1 -> Forall (fun a => plain_term true a = true) s2 ->
  Forall2 (fun a b => subst_term env s2 a = Some b) s1 s12 ->
  subst_ty env s1 t = Some l1 -> subst_row env s2 l1 = Some l2 ->
  subst_ty env s12 t = Some l2.
Proof.
  intros env decls s1 s2 s12 t l1 l2 V P F P1 P2 S.
  exact (proj1 (compose_both env decls s1 s2 s12 F P1 P2 S) t V P l1 l2).
Qed.
Print Assumptions substitution_stages_partial.

Theorem substitution_stages_term_partial : forall env decls s1 s2 s12 t t1 t2,
  valid_term env decls t = true -> plain_term true t = true ->
  check_terms s1 decls = true ->
  Forall (fun a => plain_term true a = true) s1 -> Forall (fun a => plain_term true a = true) s2 ->
  Forall2 (fun a b => subst_term env s2 a = Some b) s1 s12 ->
  subst_term env s1 t = Some t1 -> subst_term env s2 t1 = Some t2 ->
  subst_term env s12 t = Some t2.
Proof.
  intros env decls s1 s2 s12 t t1 t2 V P F P1 P2 S.
  exact (proj2 (compose_both env decls s1 s2 s12 F P1 P2 S) t V P t1 t2).
Qed.
Print Assumptions substitution_stages_term_partial.

(** The identity law fails for tuple kinds: they come back as list kinds. *)
Theorem substitution_identity_refuted : exists env decls t t',
  valid_term env decls t = true /\ cached_term t /\
  subst_term env (identity_args decls) t = Some t' /\ t' <> t.
Proof.
  exists demo_env, [], (KTuple (MList [KType Copyable])), (KList (MList [KType Copyable])).
  vm_compute. repeat split; discriminate.
Qed.
Print Assumptions substitution_identity_refuted.

(** It also fails for row variables: substituting a row variable for itself panics. *)
Theorem substitution_row_identity_refuted : exists env decls t,
  valid_ty env decls t = true /\ cached_ty t /\ check_terms (identity_args decls) decls = true /\
  subst_ty env (identity_args decls) t = None.
Proof. exists demo_env, [KList (KType Linear)], (TFun [TRow 0 Linear] []). vm_compute. auto. Qed.
Print Assumptions substitution_row_identity_refuted.

Example identity_nonvacuous :
  let decls := [KNat None; KType Linear] in
  let t := TSum [[array (MVar 0 (KNat None)) (TVar 1 Linear) Linear]; []] Linear in
  valid_ty demo_env decls t = true /\ plain_ty false t = true /\
  subst_ty demo_env (identity_args decls) t = Some [t].
Proof. vm_compute. auto. Qed.

Example stages_nonvacuous :
  (** A row variable replaced by a list with another row variable, which is then replaced. *)
  let row := KList (KType Linear) in
  let t := TFun [TRow 0 Linear; TVar 1 Linear] [TExt 0 4 [MList [MVar 0 row; MType usize]] Linear] in
  let s1 := [MList [MType qubit; MVar 0 row]; MType (TVar 1 Copyable)] in
  let s2 := [MList [MType usize; MType usize]; MType usize] in
  let s12 := [MList [MType qubit; MType usize; MType usize]; MType usize] in
  valid_ty demo_env [row; KType Linear] t = true /\ check_terms s1 [row; KType Linear] = true /\
  all_some (map (subst_term demo_env s2) s1) = Some s12 /\
  (exists l1, subst_ty demo_env s1 t = Some l1 /\
   subst_row demo_env s2 l1 =
     Some [TFun [qubit; usize; usize; usize]
                [TExt 0 4 [MList [MType qubit; MType usize; MType usize; MType usize]] Linear]]) /\
  subst_ty demo_env s12 t =
    Some [TFun [qubit; usize; usize; usize]
               [TExt 0 4 [MList [MType qubit; MType usize; MType usize; MType usize]] Linear]].
Proof. vm_compute. repeat split; auto. eexists. split; reflexivity. Qed.

(** ** C19: the order of kinds *)
Theorem kind_transitive : forall a b c,
  is_supertype a b = true -> is_supertype b c = true -> is_supertype a c = true.
Proof. exact supertype_trans. Qed.
Print Assumptions kind_transitive.

Theorem kind_antisymmetric : forall a b, is_supertype a b = true -> is_supertype b a = true -> a = b.
Proof. exact supertype_antisym. Qed.
Print Assumptions kind_antisymmetric.

(** Exactly which kinds are related to themselves: those without concatenations and constant kinds. *)
Theorem kind_reflexive_iff : forall k, is_supertype k k = true <-> self_kind k = true.
Proof. exact supertype_refl_iff. Qed.
Print Assumptions kind_reflexive_iff.

(** So the relation is not reflexive: a constant kind is not related to itself, and a variable of a
    constant kind is not accepted for that same kind. *)
Theorem kind_reflexive_refuted : exists k, is_supertype k k = false /\ check_term (new_var_use 0 k) k = false.
Proof. exists (KConst usize). vm_compute. auto. Qed.
Print Assumptions kind_reflexive_refuted.

Theorem argument_accepted_for_larger_kind : forall t k k',
  is_supertype k' k = true -> check_term t k = true -> check_term t k' = true.
Proof. exact check_mono. Qed.
Print Assumptions argument_accepted_for_larger_kind.

(** A use of a declared variable is accepted exactly for the kinds above its declaration. *)
Theorem variable_accepted_iff : forall i d k, (forall b, d <> KType b) ->
  (check_term (new_var_use i d) k = true <-> is_supertype k d = true).
Proof.
  intros i d k H. unfold new_var_use. destruct d; try reflexivity. destruct (H b eq_refl).
Qed.
Print Assumptions variable_accepted_iff.

(** A type is accepted exactly for the type kinds that contain its bound. *)
Theorem type_accepted_iff : forall t k,
  check_term (MType t) k = true <-> exists b, k = KType b /\ (b = Copyable -> copyable t = true).
Proof.
  intros t k. cbn [check_term]. unfold copyable. split.
  - destruct k; try discriminate. intros H. exists b. split; [reflexivity|]. intros ->. exact H.
  - intros (b & -> & H). destruct b; [apply H; reflexivity|reflexivity].
Qed.
Print Assumptions type_accepted_iff.

Example kinds_nonvacuous :
  is_supertype (KList (KType Linear)) (KList (KType Copyable)) = true /\
  is_supertype (KList (KType Copyable)) (KList (KType Linear)) = false /\
  is_supertype (KTuple (MList [KNat None; KType Linear])) (KTuple (MList [KNat (Some 5%N); KType Copyable])) = true /\
  check_term (MTuple [MNat 4; MType usize]) (KTuple (MList [KNat (Some 5%N); KType Copyable])) = true /\
  check_term (MTuple [MNat 4; MType usize]) (KTuple (MList [KNat None; KType Linear])) = true /\
  check_term (MTuple [MNat 5; MType usize]) (KTuple (MList [KNat (Some 5%N); KType Copyable])) = false.
Proof. vm_compute. auto 7. Qed.

(** ** C20: instantiating signatures *)
Lemma instantiate_inv : forall env p args x y, instantiate env p args = Done (x, y) ->
  check_terms args (p_params p) = true /\
  subst_row env args (p_ins p) = Some x /\ subst_row env args (p_outs p) = Some y.
Proof.
  intros env p args x y. unfold instantiate. destruct (check_terms args (p_params p)); [|discriminate].
  destruct (subst_row env args (p_ins p)); [|discriminate].
  destruct (subst_row env args (p_outs p)); [|discriminate].
  intros E. injection E as -> ->. auto.
Qed.

Lemma row_closed : forall env (PT : ty -> Prop) PM, closed PT PM -> forall args r x, Forall PM args ->
  subst_row env args r = Some x -> Forall PT x.
Proof.
  intros env PT PM C args r x F E. apply subst_row_iff in E. destruct E as (rs & Fr & ->).
  apply Forall_concat'. eapply Forall2_Forall_r; [exact Fr|]. intros a b _ Ea.
  exact (proj1 (subst_closed env _ _ C args F) a b Ea).
Qed.

(** Wrong arguments are rejected before anything else happens. *)
Theorem instantiate_rejects_iff : forall env p args,
  instantiate env p args = Rejected <-> check_terms args (p_params p) = false.
Proof.
  intros env p args. unfold instantiate. destruct (check_terms args (p_params p)); [|split; reflexivity].
  split; [|discriminate]. destruct (subst_row env args (p_ins p)), (subst_row env args (p_outs p)); discriminate.
Qed.
Print Assumptions instantiate_rejects_iff.

Theorem accepted_arguments_count : forall args params,
  check_terms args params = true -> length args = length params.
Proof. intros args params H. apply check_terms_iff in H. eapply Forall2_len. exact H. Qed.
Print Assumptions accepted_arguments_count.

(** The result only mentions variables of the context of the arguments. *)
Theorem instantiate_scoped : forall env p args x y n,
  instantiate env p args = Done (x, y) -> forallb (scoped_term n) args = true ->
  forallb (scoped_ty n) x = true /\ forallb (scoped_ty n) y = true.
Proof.
  intros env p args x y n E S. apply instantiate_inv in E. destruct E as (_ & E1 & E2).
  rewrite forallb_Forall_iff in S. rewrite !forallb_Forall_iff.
  split; eapply row_closed; eauto using scoped_closed.
Qed.
Print Assumptions instantiate_scoped.

(** No row variable is left if the arguments have none. *)
Theorem instantiate_no_rows : forall env p args x y,
  instantiate env p args = Done (x, y) -> forallb norow_term args = true ->
  forallb norow_ty x = true /\ forallb norow_ty y = true.
Proof.
  intros env p args x y E S. apply instantiate_inv in E. destruct E as (_ & E1 & E2).
  rewrite forallb_Forall_iff in S. rewrite !forallb_Forall_iff.
  split; eapply row_closed; eauto using norow_closed.
Qed.
Print Assumptions instantiate_no_rows.

(** How many types an element of a row turns into. *)
Definition contribution (args : list term) (t : ty) : nat :=
  match t with
  | TRow i _ => match nth_error args i with Some (MList l) => length l | _ => 1 end
  | _ => 1
  end.

Lemma subst_length : forall env args t l, subst_ty env args t = Some l -> length l = contribution args t.
Proof.
  intros env args t l. destruct t; autorewrite with substs; cbn [contribution].
  - destruct (all_some (map (subst_term env args) args0)); [|discriminate].
    destruct (env ext id); [|discriminate]. destruct (def_bound t l0); [|discriminate].
    intros E. injection E as <-. reflexivity.
  - intros E. injection E as <-. reflexivity.
  - destruct (all_some (map (subst_ty env args) ins)); [|discriminate].
    destruct (all_some (map (subst_ty env args) outs)); [|discriminate].
    intros E. injection E as <-. reflexivity.
  - destruct (nth_error args i) as [[]|]; try discriminate. intros E. injection E as <-. reflexivity.
  - unfold apply_rowvar. destruct (nth_error args i) as [[]|]; try discriminate.
    + destruct t; try discriminate. intros E. injection E as <-. reflexivity.
    + intros E. apply all_some_Forall2 in E. symmetry. eapply Forall2_len. exact E.
  - destruct (all_some (map (subst_row env args) rows)); [|discriminate].
    intros E. injection E as <-. reflexivity.
Qed.

Theorem instantiate_length : forall env p args x y,
  instantiate env p args = Done (x, y) ->
  length x = list_sum (map (contribution args) (p_ins p)) /\
  length y = list_sum (map (contribution args) (p_outs p)).
Proof.
  intros env p args x y E. apply instantiate_inv in E. destruct E as (_ & E1 & E2).
  assert (X : forall r z, subst_row env args r = Some z -> length z = list_sum (map (contribution args) r)).
  { intros r z Er. apply subst_row_iff in Er. destruct Er as (rs & F & ->).
    induction F as [|a b r rs Ea F IH]; [reflexivity|]. cbn [concat map]. rewrite app_length, IH.
    rewrite (subst_length _ _ _ _ Ea). reflexivity. }
  auto.
Qed.
Print Assumptions instantiate_length.

(** The result is valid in the context of the arguments, so that it can be used (or instantiated)
    there.  Missing: concatenations, tuple kinds, and type definitions with a parameter that is a
    list of rows (see [substitution_keeps_kind_refuted]). *)
Theorem instantiate_valid_partial : forall env p args outer x y,
  poly_valid env p = true -> Forall cached_ty (p_ins p) -> Forall cached_ty (p_outs p) ->
  forallb (plain_ty true) (p_ins p) = true -> forallb (plain_ty true) (p_outs p) = true ->
  forallb (plain_term true) args = true -> forallb (valid_term env outer) args = true ->
  (forall e i d, env e i = Some d -> Forall (fun k => flat_kind k = true) (td_params d)) ->
  instantiate env p args = Done (x, y) ->
  forallb (valid_ty env outer) x = true /\ forallb (valid_ty env outer) y = true.
Proof.
  intros env p args outer x y PV C1 C2 P1 P2 PA VA FE E. apply instantiate_inv in E. destruct E as (Ft & E1 & E2).
  unfold poly_valid in PV. apply andb_true_iff in PV. destruct PV as [V1 V2].
  rewrite forallb_Forall_iff in *. rewrite !forallb_Forall_iff in *.
  assert (X : forall r z, Forall (fun t => valid_ty env (p_params p) t = true) r -> Forall cached_ty r ->
              Forall (fun t => plain_ty true t = true) r -> subst_row env args r = Some z ->
              Forall (fun t => valid_ty env outer t = true) z).
  { intros r z V C P Er. apply subst_row_iff in Er. destruct Er as (rs & F & ->). apply Forall_concat'.
    eapply Forall2_Forall_r; [exact F|]. intros a b I Ea. rewrite Forall_forall in V, C, P.
    exact (proj1 (subst_valid_both env (p_params p) args Ft PA outer VA FE) a (V a I) (C a I) (P a I) b Ea). }
  split; eauto.
Qed.
Print Assumptions instantiate_valid_partial.

(** Accepted arguments never make instantiation panic, if row arguments are written as lists. *)
Theorem instantiate_total_partial : forall env p args,
  poly_valid env p = true ->
  forallb (plain_ty true) (p_ins p) = true -> forallb (plain_ty true) (p_outs p) = true ->
  forallb (plain_term true) args = true ->
  rows_listed args (p_params p) -> (forall e i d, env e i = Some d -> sane_def d) ->
  check_terms args (p_params p) = true ->
  exists x y, instantiate env p args = Done (x, y).
Proof.
  intros env p args PV P1 P2 PA L S Ft. unfold poly_valid in PV. apply andb_true_iff in PV. destruct PV as [V1 V2].
  rewrite !forallb_Forall_iff in *.
  assert (X : forall r, Forall (fun t => valid_ty env (p_params p) t = true) r ->
              Forall (fun t => plain_ty true t = true) r -> exists z, subst_row env args r = Some z).
  { intros r V P. unfold subst_row. destruct (all_some (map (subst_ty env args) r)) eqn:E; [eexists; reflexivity|].
    apply all_some_None in E. destruct E as (a & I & E). rewrite Forall_forall in V, P.
    destruct (proj1 (subst_total_both env (p_params p) args Ft PA L S) a (V a I) (P a I)) as (l & El & _).
    congruence. }
  destruct (X _ V1 P1) as (x & Ex). destruct (X _ V2 P2) as (y & Ey). exists x, y.
  unfold instantiate. rewrite Ft, Ex, Ey. reflexivity.
Qed.
Print Assumptions instantiate_total_partial.

(** An accepted argument can make instantiation panic: a row variable used directly as the argument
    of a row parameter. *)
Theorem instantiate_total_refuted : exists env p args outer,
  poly_valid env p = true /\ check_terms args (p_params p) = true /\
  forallb (valid_term env outer) args = true /\ instantiate env p args = Panics.
Proof.
  exists demo_env, {| p_params := [KList (KType Linear)]; p_ins := [TRow 0 Linear]; p_outs := [] |},
    [MVar 0 (KList (KType Linear))], [KList (KType Linear)].
  vm_compute. auto.
Qed.
Print Assumptions instantiate_total_refuted.

(** A concatenation of plain types, which is not a list of types at all, is accepted where a list
    of types is wanted, while a concatenation of lists is rejected. *)
Theorem concat_accepted_refuted :
  check_term (MListConcat [MType usize]) (KList (KType Linear)) = true /\
  check_term (MListConcat [MList [MType usize]]) (KList (KType Linear)) = false /\
  instantiate demo_env {| p_params := [KList (KType Linear)]; p_ins := [TRow 0 Linear]; p_outs := [] |}
    [MListConcat [MType usize]] = Panics.
Proof. vm_compute. auto. Qed.
Print Assumptions concat_accepted_refuted.

(** Substitution does not keep arguments acceptable: a list of rows that starts with a row variable
    is flattened into a single row, and the instantiated type is no longer valid. *)
Theorem substitution_keeps_kind_refuted : exists env p args x,
  poly_valid env p = true /\ check_terms args (p_params p) = true /\
  forallb (valid_term env []) args = true /\
  instantiate env p args = Done (x, []) /\ forallb (valid_ty env []) x = false.
Proof.
  exists demo_env,
    {| p_params := [KList (KType Linear)];
       p_ins := [TExt 0 3 [MList [MVar 0 (KList (KType Linear)); MList [MType usize]]] Linear];
       p_outs := [] |},
    [MList [MType qubit]].
  eexists. vm_compute. repeat split.
Qed.
Print Assumptions substitution_keeps_kind_refuted.

Example instantiate_nonvacuous :
  let p := {| p_params := [KList (KType Linear); KType Copyable; KNat (Some 10%N)];
              p_ins := [TVar 1 Copyable; TRow 0 Linear];
              p_outs := [TRow 0 Linear; array (MVar 2 (KNat (Some 10%N))) (TVar 1 Copyable) Copyable] |} in
  let args := [MList [MType qubit; MVar 0 (KList (KType Linear))]; MType (TVar 1 Copyable); MNat 7] in
  poly_valid demo_env p = true /\
  forallb (valid_term demo_env [KList (KType Linear); KType Copyable]) args = true /\
  instantiate demo_env p args =
    Done ([TVar 1 Copyable; qubit; TRow 0 Linear],
          [qubit; TRow 0 Linear; array (MNat 7) (TVar 1 Copyable) Copyable]) /\
  instantiate demo_env p [MList []; MType qubit; MNat 7] = Rejected /\
  instantiate demo_env p [MList []; MType usize; MNat 10] = Rejected /\
  instantiate demo_env p [MList []; MType usize] = Rejected.
Proof. vm_compute. auto 7. Qed.

(** ** C42: transforming types *)
Theorem transform_keeps_bounds : forall env tr t t' c,
  (forall e i args b nt, tr e i args b = Some (Some nt) -> cached_ty nt) ->
  cached_ty t -> transform_ty env tr t = Some (t', c) ->
  cached_ty t' /\ (copyable t' = true <-> copyable_ty t').
Proof.
  intros env tr t t' c HT Ca E.
  pose proof (proj1 (transform_cached_both env tr HT) t Ca t' c E) as G. split; [exact G|].
  unfold copyable. rewrite bcontains_Copyable. exact (copyable_iff t' G).
Qed.
Print Assumptions transform_keeps_bounds.

Theorem transform_unchanged : forall env tr t t',
  cached_ty t -> transform_ty env tr t = Some (t', false) -> t' = t.
Proof. intros env tr t t' Ca. exact (proj1 (transform_same_both env tr) t Ca t'). Qed.
Print Assumptions transform_unchanged.

Theorem transform_nothing : forall env tr t, (forall e i args b, tr e i args b = Some None) ->
  cached_ty t -> transform_ty env tr t = Some (t, false).
Proof. intros env tr t HT. exact (proj1 (transform_none_both env tr HT) t). Qed.
Print Assumptions transform_nothing.

(** A changed extension type has been checked against its definition again. *)
Theorem transform_checks_arguments : forall env tr e i args b t',
  tr e i args b = Some None -> transform_ty env tr (TExt e i args b) = Some (t', true) ->
  exists d args' b', env e i = Some d /\ t' = TExt e i args' b' /\
    check_terms args' (td_params d) = true /\ def_bound d args' = Some b'.
Proof.
  intros env tr e i args b t' H. rewrite transform_ext_eq, H.
  destruct (tr_seq (transform_term env tr) args) as [[args' []]|]; try discriminate.
  destruct (env e i) as [d|]; [|discriminate].
  destruct (check_terms args' (td_params d)) eqn:C; [|discriminate].
  destruct (def_bound d args') as [b'|] eqn:B; [|discriminate].
  intros E. injection E as <-. exists d, args', b'. auto.
Qed.
Print Assumptions transform_checks_arguments.

Example transform_nonvacuous :
  (** usize becomes qubit: the array and the sum around it become linear. *)
  let tr := fun (e i : N) (_ : list term) (_ : bnd) => Some (if N.eqb i 0 then Some qubit else None) in
  let t := TSum [[array (MNat 2) usize Copyable]; [TFun [usize] []]] Copyable in
  transform_ty demo_env tr t =
    Some (TSum [[array (MNat 2) qubit Linear]; [TFun [qubit] []]] Linear, true) /\
  transform_ty demo_env tr (TFun [qubit] [TVar 0 Linear]) = Some (TFun [qubit] [TVar 0 Linear], false).
Proof. vm_compute. auto. Qed.
