(** The binary form of packages. *)
From Coq Require Import String List Bool NArith Arith Lia Permutation.
From Verif Require Import TextModel TextSpec ResolveModel ResolveSpec ResolveProps BinaryModel BinarySpec BinaryProofs.
Import ListNotations.
Open Scope nat_scope.
Open Scope list_scope.

(** C56: what is written is read back, but for the constraints of aliases. *)
Theorem binary_round_trip (F : Type) (bits : F -> N) (unbits : N -> F) (ms : list (@tmodule F)) :
  (forall f, unbits (bits f) = f) -> Forall module_fits ms -> read_package unbits (write_package bits ms) = Good (map bare_module ms).
Proof. intros H. apply package_round, H. Qed.

Lemma bare_same (F : Type) (m : @tmodule F) : unconstrained m <-> bare_module m = m.
Proof.
  assert (W : forall n, unconstrained_alias (tn_op n) <-> bare_node n = n).
  { intros [o a b c d e]. unfold bare_node. cbn [tn_op tn_in tn_out tn_regions tn_meta tn_sig].
    split; intros H.
    - f_equal. destruct o as [| | | |s|s|t|s t|s| | |s|s|n]; try reflexivity; cbn in *; destruct s; cbn in *; subst; reflexivity.
    - assert (E : bare_operation o = o) by congruence. destruct o as [| | | |s|s|t|s t|s| | |s|s|n]; try exact Logic.I; cbn in *;
        (assert (E2 : no_where s = s) by congruence; rewrite <- E2; reflexivity). }
  destruct m as [root ns rs ts]. unfold unconstrained, bare_module. cbn [tm_root tm_nodes tm_regions tm_terms]. split; intros H.
  - f_equal. induction H as [|n ns Hn _ IH]; cbn; [reflexivity|]. f_equal; [apply W; exact Hn|exact IH].
  - assert (E : map bare_node ns = ns) by congruence. clear H. induction ns as [|n ns IH]; [constructor|]. cbn in E. constructor; [apply W; congruence|apply IH; congruence].
Qed.
Lemma map_fixed A (f : A -> A) l : map f l = l <-> Forall (fun a => f a = a) l.
Proof.
  split; intros H.
  - induction l as [|a l IH]; [constructor|]. cbn in H. constructor; [congruence|apply IH; congruence].
  - induction H; cbn; congruence.
Qed.
(** The package comes back as it was exactly if no alias has constraints. *)
Theorem binary_exact (F : Type) (bits : F -> N) (unbits : N -> F) (ms : list (@tmodule F)) :
  (forall f, unbits (bits f) = f) -> Forall module_fits ms ->
  (read_package unbits (write_package bits ms) = Good ms <-> Forall unconstrained ms).
Proof.
  intros H Hf. rewrite binary_round_trip by assumption. split; intros E.
  - assert (E2 : map bare_module ms = ms) by congruence. apply map_fixed in E2. revert E2. apply Forall_impl. intros m. apply bare_same.
  - f_equal. apply map_fixed. revert E. apply Forall_impl. intros m. apply bare_same.
Qed.
(** Different packages are written differently. *)
Theorem binary_injective (F : Type) (bits : F -> N) (unbits : N -> F) (ms ns : list (@tmodule F)) :
  (forall f, unbits (bits f) = f) -> Forall module_fits ms -> Forall module_fits ns -> Forall unconstrained ms -> Forall unconstrained ns ->
  write_package bits ms = write_package bits ns -> ms = ns.
Proof.
  intros H Fm Fn Um Un E. apply (binary_exact F bits unbits) in Um; [|assumption..]. apply (binary_exact F bits unbits) in Un; [|assumption..]. congruence.
Qed.
(** The version alone decides whether a package is refused for its version; the minor versions accepted make no difference. *)
Theorem binary_version (F : Type) (unbits : N -> F) (modules : obj) (major minor : N) :
  u32 major -> u32 minor ->
  let r := read_package unbits (Struct [] [modules; write_version major minor (fresh 1 0)]) in
  let current := read_package unbits (Struct [] [modules; write_version current_major current_minor (fresh 1 0)]) in
  ((major <> current_major \/ (current_minor < minor)%N) -> r = Version major minor) /\
  (major = current_major -> (minor <= current_minor)%N -> r = current).
Proof.
  intros _ _. cbv zeta. unfold read_package. 
  assert (V : forall a b, as_struct (get_ptr 1 (Struct [] [modules; write_version a b (fresh 1 0)])) = Good (write_version a b (fresh 1 0))) by reflexivity.
  assert (A : forall a b, get32 0 (write_version a b (fresh 1 0)) = a) by (intros a b; unfold get32, get16; cbn -[N.mul N.div N.modulo N.add]; apply halves).
  assert (B : forall a b, get32 1 (write_version a b (fresh 1 0)) = b) by (intros a b; unfold get32, get16; cbn -[N.mul N.div N.modulo N.add]; apply halves).
  rewrite !V. cbn [gbind]. rewrite !A, !B. split.
  - intros [H|H].
    + destruct (N.eqb_spec major current_major); [contradiction|]. reflexivity.
    + apply N.ltb_lt in H. rewrite H, orb_true_r. reflexivity.
  - intros -> H. assert (E : (current_minor <? minor)%N = false) by (apply N.ltb_ge; exact H). rewrite E. reflexivity.
Qed.
(** Nothing else is refused for its version. *)
Theorem binary_no_version_error (F : Type) (unbits : N -> F) (modules : obj) (a b : N) :
  read_package unbits (Struct [] [modules; write_version current_major current_minor (fresh 1 0)]) <> Version a b.
Proof.
  assert (C : forall A B (f : A -> got B) l, (forall x, f x <> Version a b) -> collect f l <> Version a b).
  { intros A B f l H. induction l as [|x l IH]; cbn; [discriminate|]. specialize (H x). destruct (f x); cbn; [|discriminate|intros E; injection E as -> ->; exact (H eq_refl)].
    destruct (collect f l); cbn; [discriminate|discriminate|exact IH]. }
  assert (T : forall A B (x : got A) (f : A -> got B), x <> Version a b -> (forall y, f y <> Version a b) -> gbind x f <> Version a b).
  { intros A B x f Hx Hf. destruct x; cbn; [apply Hf|discriminate|intros E; injection E as -> ->; exact (Hx eq_refl)]. }
  assert (L : forall o, as_structs o <> Version a b) by (destruct o; discriminate).
  assert (L2 : forall o, as_words o <> Version a b) by (destruct o; discriminate).
  assert (L3 : forall o, as_text o <> Version a b) by (destruct o; discriminate).
  assert (L4 : forall o, as_struct o <> Version a b) by (destruct o; discriminate).
  assert (L5 : forall o, as_data o <> Version a b) by (destruct o; discriminate).
  assert (RS : forall c o, read_symbol c o <> Version a b).
  { intros c o. unfold read_symbol. apply T; [apply L3|intros n]. apply T; [unfold read_visibility; repeat (destruct (_ =? _)%N; try discriminate)|intros v].
    apply T; [apply L|intros l]. apply T; [apply C; intros x; unfold read_param; apply T; [apply L3|discriminate]|intros ps].
    apply T; [destruct c; [discriminate|apply L2]|discriminate]. }
  assert (RA : forall c o, symbol_at c o <> Version a b) by (intros c o; apply T; [apply L4|apply RS]).
  assert (RP : forall o, read_part o <> Version a b).
  { intros o. unfold read_part. destruct (get16 2 o) as [|[?|?|]]; discriminate. }
  unfold read_package. change (as_struct (get_ptr 1 _)) with (Good (write_version current_major current_minor (fresh 1 0))). cbn [gbind].
  change (negb _ || _) with false. cbn iota. apply T; [apply L|]. intros l. apply C. intros m. unfold read_module.
  apply T; [apply L|intros l1]. apply T; [apply C|intros ns].
  { intros n. unfold read_node. apply T; [apply L4|intros o]. apply T.
    - unfold read_operation. destruct (get16 2 o) as [|p]; [discriminate|].
      do 4 (try destruct p as [p|p|]); try discriminate; (apply T; [first [apply RA|apply L3]|discriminate]).
    - intros op. repeat (apply T; [apply L2|intros ?]). discriminate. }
  apply T; [apply L|intros l2]. apply T; [apply C|intros rs].
  { intros r. unfold read_region. apply T; [unfold read_kind; repeat (destruct (_ =? _)%N; try discriminate)|intros k].
    repeat (apply T; [apply L2|intros ?]). apply T; [|discriminate]. destruct (get_ptr 4 r); try discriminate. }
  apply T; [apply L|intros l3]. apply T; [apply C|discriminate].
  intros t. unfold read_term. destruct (get16 2 t) as [|p]; [apply T; [apply L2|discriminate]|].
  do 4 (try destruct p as [p|p|]); repeat first [discriminate|apply L|apply L2|apply L3|apply L5|apply (C _ _ _ _ RP)|apply T; [|intros ?]].
Qed.
(** Writing and reading the table of a syntax tree: reading it as a tree gives the tree, but for the constraints of aliases. *)
Theorem binary_tree (F : Type) (bits : F -> N) (unbits : N -> F) (t : @tmodule F) (fuel : nat) (m : @module F) :
  (forall f, unbits (bits f) = f) -> module_fits t -> as_ast t fuel = Some m ->
  exists t', read_package unbits (write_package bits [t]) = Good [t'] /\ as_ast t' fuel = Some (bare_region m).
Proof.
  intros H Hf E. exists (bare_module t). split; [apply (binary_round_trip F bits unbits [t] H); auto|]. exact (proj1 (proj2 (view_bare t fuel)) _ _ E).
Qed.
(** Resolving, writing, reading and viewing a module *)
Theorem binary_pipeline (F : Type) (feq : F -> F -> bool) (drain : list (str * N) -> list (str * N)) (bits : F -> N) (unbits : N -> F)
    (m : @module F) (t : @tmodule F) :
  (forall a b, feq a b = true <-> a = b) -> (forall l, Permutation (drain l) l) -> (forall f, unbits (bits f) = f) ->
  fits_module m -> resolve feq drain m = Ok t -> module_fits t ->
  exists t' im, read_package unbits (write_package bits [t]) = Good [t'] /\
    (exists k, forall fuel, k <= fuel -> as_ast t' fuel = Some (bare_region (with_imports (numbered_module m) im))) /\
    NoDup im /\ (forall n, In n im <-> In n (open_module m)).
Proof.
  intros Hq Hd Hb Hf Hr Ht. destruct (resolve_exact F feq drain m t Hq Hd Hf Hr) as (im & (k & Hk) & N1 & N2).
  exists (bare_module t), im. split; [apply (binary_round_trip F bits unbits [t] Hb); auto|]. split; [|split; assumption].
  exists k. intros fuel Hfu. exact (proj1 (proj2 (view_bare t fuel)) _ _ (Hk fuel Hfu)).
Qed.
(** The constraints of an alias are lost: a module of one alias [a] with the parameter [T] and a constraint on it. *)
Definition alias_symbol : symbol N := Symbol None (text "a") [(text "T", 0%N)] [1%N] 0%N.
Definition alias_module : @tmodule N :=
  TModule 0%N [TNode (DeclareAlias alias_symbol) [] [] [] [] None] [TRegion ModuleRegion [] [] [0%N] [] None (Some (0, 0)%N)]
    [TWildcard; TVar 0 0].
Theorem binary_alias_refuted :
  exists (m m' : @module N) (t : @tmodule N), fits_module m /\ scoped_module m /\ open_module m = [] /\
    resolve N.eqb (fun l => l) m = Ok t /\ module_fits t /\ as_ast t 9 = Some m /\
    exists t', read_package (fun n => n) (write_package (fun n => n) [t]) = Good [t'] /\ as_ast t' 9 = Some m' /\ m' <> m.
Proof.
  exists (Region ModuleRegion [] [] [Node (DeclareAlias (Symbol None (text "a") [(text "T", Wildcard)] [Var (text "T")] Wildcard)) [] [] [] [] None] [] None).
  exists (Region ModuleRegion [] [] [Node (DeclareAlias (Symbol None (text "a") [(text "T", Wildcard)] [] Wildcard)) [] [] [] [] None] [] None).
  exists alias_module.
  split; [cbn; repeat split; reflexivity|]. split; [|split; [reflexivity|split; [reflexivity|split; [|split; [reflexivity|]]]]].
  - split; [constructor; [intros []|constructor]|]. split; [|exact Logic.I]. split; [|exact Logic.I]. cbn. split; [|repeat split]. split; [|split; [split; [left; reflexivity|exact Logic.I]|exact Logic.I]].
    split; [exact Logic.I|]. split; [intros []|exact Logic.I].
  - split; [reflexivity|]. split; [|split].
    + constructor; [|constructor]. split; [|repeat split; constructor]. split; [constructor; [reflexivity|constructor]|split; [constructor; [reflexivity|constructor]|reflexivity]].
    + constructor; [|constructor]. cbn. repeat split; try constructor; try reflexivity; constructor.
    + constructor; [exact Logic.I|constructor; [split; reflexivity|constructor]].
  - exists (bare_module alias_module). split; [vm_compute; reflexivity|]. split; [reflexivity|discriminate].
Qed.
(** The largest id does not survive as an optional signature: in a build without overflow checks it is read as no signature. *)
Theorem binary_signature_refuted :
  exists m : @tmodule N, u32 4294967295 /\ tm_nodes m = [TNode Dfg [] [] [] [] (Some 4294967295%N)] /\
    read_package (fun n => n) (write_package (fun n => n) [m]) = Good [TModule (tm_root m) [TNode Dfg [] [] [] [] None] (tm_regions m) (tm_terms m)].
Proof. exists (TModule 0%N [TNode Dfg [] [] [] [] (Some 4294967295%N)] [] []). split; [reflexivity|]. split; [reflexivity|]. vm_compute. reflexivity. Qed.
Print Assumptions binary_round_trip.
Print Assumptions binary_exact.
Print Assumptions binary_injective.
Print Assumptions binary_version.
Print Assumptions binary_no_version_error.
Print Assumptions binary_tree.
Print Assumptions binary_pipeline.
Print Assumptions binary_alias_refuted.
Print Assumptions binary_signature_refuted.

(** * Examples *)
Definition sample : @tmodule N :=
  TModule 0%N
    [TNode (DefineFunc (Symbol (Some Public) (text "main") [(text "T", 0%N)] [2%N] 3%N)) [] [] [1%N] [4%N] None;
     TNode (Custom 3%N) [0%N; 1%N] [2%N] [] [] (Some 5%N); TNode (Import (text "core.fn")) [] [] [] [] None]
    [TRegion ModuleRegion [] [] [0; 2]%N [4%N] None (Some (0, 0)%N); TRegion DataFlow [0; 1]%N [2%N] [1%N] [] (Some 3%N) (Some (3, 6)%N)]
    [TWildcard; TVar 0 0; TApply 2 [0; 1]%N; TList [Item 0%N; Splice 1%N]; TLit (LStr (text "hello")); TLit (LNat 18446744073709551615);
     TLit (LBytes [0; 255]%N); TLit (LFloat 4607182418800017408%N); TTuple []; TFunc 1].
Example sample_fits : module_fits sample.
Proof.
  unfold module_fits, sample. cbn. repeat split; repeat constructor; cbn; unfold u16, u32, u64; try reflexivity; repeat split; repeat constructor; try reflexivity.
Qed.
Example sample_round : read_package (fun n => n) (write_package (fun n => n) [sample; alias_module]) = Good [sample; bare_module alias_module].
Proof. vm_compute. reflexivity. Qed.
(** A message of a later version, one without a version, and one with an unknown operation *)
Example later_version : read_package (fun n : N => n) (Struct [] [Null; write_version 1 1 (fresh 1 0)]) = Version 1 1.
Proof. reflexivity. Qed.
Example no_version : read_package (fun n : N => n) (fresh 0 2) = Version 0 0.
Proof. reflexivity. Qed.
Example unknown_operation : read_operation (set16 2 14 (fresh 1 1)) = Decoding.
Proof. reflexivity. Qed.
