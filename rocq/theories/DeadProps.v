(** Theorems about dead code elimination (C29). *)
From Coq Require Import List Bool NArith Arith Lia.
From Verif Require Import TypesModel GraphModel GraphSpec GraphProofs GraphRemove GraphBfs OpModel DeadModel DeadSpec DeadProofs.
Import ListNotations.

(** The pass never panics.  It fails exactly if an entry point does not exist, and then nothing is changed. *)
Theorem dce_total : forall {M} cb (h : hugr op M) entries, wf h ->
  ((forall n, In n entries -> In n (h_nodes h)) -> exists h', dce cb h entries = Some (Done h')) /\
  (forall n, In n entries -> ~ In n (h_nodes h) -> exists m, dce cb h entries = Some (NodeNotFound m) /\ In m entries /\ ~ In m (h_nodes h)).
Proof.
  intros M cb h entries W. pose proof (dce_spec cb h entries W) as S. destruct (dce cb h entries) as [[h'|m|]|]; try contradiction; split.
  - eauto.
  - intros n I N_. exfalso. apply N_. apply (proj1 S). now constructor.
  - intros A. exfalso. destruct S as [I N_]. auto.
  - intros n I N_. exists m. tauto.
Qed.
Print Assumptions dce_total.

(** Exactly the nodes below the entrypoint that are not needed are dropped. *)
Theorem dce_exact : forall {M} cb (h h' : hugr op M) entries, wf h -> dce cb h entries = Some (Done h') ->
  dropped (fun n => below h n (h_entry h) /\ ~ needed cb h entries n) h h' /\
  (forall n, needed cb h entries n -> In n (h_nodes h')).
Proof.
  intros M cb h h' entries W E. pose proof (dce_spec cb h entries W) as S. rewrite E in S. destruct S as (L & R & C & X).
  pose proof (culled_dropped h h' R W C) as D. unfold unneeded in X. fold (below h) in X.
  assert (X' : forall n, ~ In n R <-> ~ (below h n (h_entry h) /\ ~ needed cb h entries n)) by (intros n; rewrite X; reflexivity).
  split.
  - destruct D. constructor; auto.
    + intros m. rewrite dr_nodes, X'. reflexivity.
    + intros m N_. apply dr_same. now apply X'.
    + intros m p. rewrite dr_parent, !X'. reflexivity.
    + intros m N_. destruct (dr_kids m) as (f & Ef & Hf); [now apply X'|]. exists f. split; [exact Ef|]. intros c. now rewrite Hf, X'.
    + destruct dr_links as (f & Ef & Hf). exists f. split; [exact Ef|]. intros l. now rewrite Hf, !X'.
  - intros n N_. apply (dr_nodes _ _ _ D). split; [now apply L|]. rewrite X. tauto.
Qed.
Print Assumptions dce_exact.

(** Needed nodes keep all their inputs, and their linear outputs. *)
Theorem dce_inputs : forall {M} cb (h h' : hugr op M) entries l, wf h -> dce cb h entries = Some (Done h') -> In l (h_links h) ->
  needed cb h entries (fst (snd l)) \/
  (needed cb h entries (fst (fst l)) /\ exists s t, dataflow_signature (h_ops h (fst (fst l))) = Some s /\
     nth_error (snd s) (snd (fst l)) = Some t /\ copyable t = false) -> In l (h_links h').
Proof.
  intros M cb h h' entries [[a i] [b j]] W E I Nd. cbn [fst snd] in *. destruct (dce_exact cb h h' entries W E) as [D _].
  destruct (dr_links _ _ _ D) as (f & -> & Hf). apply filter_In. split; [exact I|]. apply Hf. cbn [fst snd].
  assert (X : needed cb h entries a /\ needed cb h entries b).
  { destruct Nd as [Nd|(Nd & s & t & Es & Et & C)].
    - split; [|exact Nd]. eapply needed_next; [exact Nd|]. eapply needs_input. exact I.
    - split; [exact Nd|]. eapply needed_next; [exact Nd|]. eapply needs_linear; eassumption. }
  tauto.
Qed.
Print Assumptions dce_inputs.

(** Links come from a region that contains the user, or from a block whose parent contains it; linear
    values stay in their region; entry points are not hidden in nodes that nothing needs. *)
Record scoped {M} cb (h : hugr op M) (entries : list N) : Prop := {
  sc_links : forall a i b j p, In ((a, i), (b, j)) (h_links h) -> h_parent h a = Some p ->
    below h b p \/ (structure (h_ops h p) /\ exists q, h_parent h p = Some q /\ below h b q);
  sc_linear : forall a i b j s t, In ((a, i), (b, j)) (h_links h) -> dataflow_signature (h_ops h a) = Some s ->
    nth_error (snd s) i = Some t -> copyable t = false -> h_parent h a = h_parent h b;
  sc_points : forall e a, In e entries -> below h e a -> below h a (h_entry h) -> needed cb h entries a }.

Lemma needed_above : forall {M} cb (h : hugr op M) entries, wf h -> scoped cb h entries -> forall n, needed cb h entries n ->
  forall a, below h n a -> below h a (h_entry h) -> needed cb h entries a.
Proof.
  intros M cb h entries W S n Nd. induction Nd as [|n I|n m Nd IH N_]; intros a U V.
  - replace a with (h_entry h); [constructor|]. apply (up_antisym h W); assumption.
  - eapply (sc_points _ _ _ S); eassumption.
  - assert (Nm : needed cb h entries m) by (eapply needed_next; eassumption).
    destruct N_ as [n m P K|n m P K|n m i j L|n m i j s t L Es Et C].
    + inversion U as [|? p ? Ep U']; subst; [exact Nm|]. rewrite P in Ep. injection Ep as <-. auto.
    + inversion U as [|? p ? Ep U']; subst; [exact Nm|]. rewrite P in Ep. injection Ep as <-. auto.
    + inversion U as [|? p ? Ep U']; subst; [exact Nm|]. destruct (sc_links _ _ _ S m i n j p L Ep) as [B|(St & q & Eq & B)].
      * apply IH; [|exact V]. eapply up_trans; eassumption.
      * inversion U' as [|? q' ? Eq' U'']; subst.
        -- inversion V as [E|? q' ? Eq' V']; subst; [constructor|]. rewrite Eq in Eq'. injection Eq' as <-.
           eapply needed_next; [apply (IH q B V')|]. now apply needs_structure.
        -- rewrite Eq in Eq'. injection Eq' as <-. apply IH; [|exact V]. eapply up_trans; eassumption.
    + inversion U as [|? p ? Ep U']; subst; [exact Nm|]. pose proof (sc_linear _ _ _ S n i m j s t L Es Et C) as E.
      apply IH; [|exact V]. eapply up_next; [rewrite E; exact Ep|exact U'].
Qed.

(** The result is well formed. *)
Theorem dce_wf : forall {M} cb (h h' : hugr op M) entries, wf h -> scoped cb h entries -> dce cb h entries = Some (Done h') -> wf h'.
Proof.
  intros M cb h h' entries W S E. pose proof (dce_spec cb h entries W) as X. rewrite E in X. destruct X as (L & R & C & X).
  apply (culled_wf h h' R W C).
  - rewrite X. intros [U N_]. apply (up_root h W) in U. apply N_. rewrite <- U. constructor.
  - rewrite X. intros [_ N_]. apply N_. constructor.
  - intros m p Ep I. apply X in I. apply X. destruct I as [U N_]. split; [eapply up_next; eassumption|]. intros Nd. apply N_.
    eapply (needed_above cb h entries W S m Nd); [|exact U]. eapply up_next; [exact Ep|constructor].
Qed.
Print Assumptions dce_wf.

(** Running the pass again removes nothing. *)
Theorem dce_idempotent : forall {M} cb (h h' : hugr op M) entries, wf h -> dce cb h entries = Some (Done h') -> wf h' ->
  (forall n, In n (h_nodes h') -> cb h' n = cb h n) -> dce cb h' entries = Some (Done h').
Proof.
  intros M cb h h' entries W E W' Cb. destruct (dce_exact cb h h' entries W E) as [D Live].
  assert (NR : forall n, needed cb h entries n -> ~ (below h n (h_entry h) /\ ~ needed cb h entries n)) by (intros n; tauto).
  assert (Par : forall m p, needed cb h entries m -> needed cb h entries p -> h_parent h m = Some p -> h_parent h' m = Some p).
  { intros m p A B P. apply (dr_parent _ _ _ D). auto. }
  assert (K : forall m, kept cb h m -> needed cb h entries m -> kept cb h' m).
  { intros m Km. induction Km as [m Em|m c Em P Kc IH]; intros Nm.
    - apply kept_here. rewrite Cb; auto.
    - assert (Nc : needed cb h entries c) by (eapply needed_next; [exact Nm|now apply needs_kept]).
      eapply kept_below; [rewrite Cb; auto|apply Par; eassumption|auto]. }
  assert (Ops : forall m, needed cb h entries m -> h_ops h' m = h_ops h m) by (intros m A; apply (dr_same _ _ _ D); auto).
  assert (Lk : forall l, In l (h_links h) -> needed cb h entries (fst (fst l)) -> needed cb h entries (fst (snd l)) -> In l (h_links h')).
  { intros l I A B. destruct (dr_links _ _ _ D) as (f & -> & Hf). apply filter_In. split; [exact I|]. apply Hf. auto. }
  assert (Nd : forall n, needed cb h entries n -> needed cb h' entries n).
  { intros n X. induction X as [|n I|n m X IH N_].
    - rewrite <- (dr_entry _ _ _ D). constructor.
    - now constructor.
    - assert (Nm : needed cb h entries m) by (eapply needed_next; eassumption). eapply needed_next; [exact IH|].
      destruct N_ as [n m P Km|n m P St|n m i j L|n m i j s t L Es Et C].
      + apply needs_kept; auto.
      + apply needs_structure; auto. now rewrite Ops.
      + eapply needs_input. apply (Lk _ L); auto.
      + eapply needs_linear; [apply (Lk _ L); auto| |exact Et|exact C]. now rewrite Ops. }
  unfold dce. pose proof (find_needed_spec cb h' entries W') as F. destruct (find_needed cb h' entries) as [l|n|].
  - destruct F as [F _]. destruct (descendants_spec h' W' (h_entry h') (wf_entry h' W')) as (_ & _ & X).
    replace (filter (fun n => negb (memN n l)) (descendants h' (h_entry h'))) with (@nil N); [reflexivity|]. symmetry.
    assert (G : forall ds, incl ds (descendants h' (h_entry h')) -> filter (fun n => negb (memN n l)) ds = []).
    { induction ds as [|x ds IH]; intros I; [reflexivity|]. cbn [filter]. replace (memN x l) with true.
      - apply IH. intros y Iy. apply I. now right.
      - symmetry. apply memN_iff. apply F. apply Nd. assert (U : up (h_parent h') x (h_entry h')) by (apply X, I; now left).
        assert (Ix : In x (h_nodes h')).
        { inversion U as [E1|? p ? Ep _]; [apply (wf_entry h' W')|apply (wf_parent_live h' W' x p Ep)]. }
        apply (dr_nodes _ _ _ D) in Ix. destruct Ix as [Ix NR'].
        assert (Uh : below h x (h_entry h)).
        { rewrite <- (dr_entry _ _ _ D). apply (up_mono (h_parent h') (h_parent h)); [|exact U]. intros a b Eab. now apply (dr_parent _ _ _ D). }
        destruct (memN x (match find_needed cb h entries with Done l => l | _ => [] end)) eqn:Mx.
        + apply memN_iff in Mx. pose proof (find_needed_spec cb h entries W) as F0. destruct (find_needed cb h entries) as [l0| |]; [|destruct Mx|destruct Mx]. now apply F0.
        + exfalso. apply memN_false in Mx. apply NR'. split; [exact Uh|]. intros Z. apply Mx. pose proof (find_needed_spec cb h entries W) as F0.
          unfold dce in E. destruct (find_needed cb h entries) as [l0| |]; try discriminate. now apply F0. }
    apply G, incl_refl.
  - exfalso. destruct F as [I N_]. apply N_. apply Live. now constructor.
  - contradiction.
Qed.
Print Assumptions dce_idempotent.

(** The default callback depends on the operation only, so it is stable. *)
Theorem dce_default_stable : forall {M} (h h' : hugr op M) entries, wf h -> dce default_for h entries = Some (Done h') ->
  forall n, In n (h_nodes h') -> default_for h' n = default_for h n.
Proof.
  intros M h h' entries W E n I. destruct (dce_exact _ h h' entries W E) as [D _]. apply (dr_nodes _ _ _ D) in I. unfold default_for.
  now rewrite (proj1 (dr_same _ _ _ D n (proj2 I))).
Qed.
Print Assumptions dce_default_stable.

(** ** Disagreements with the documentation *)
Definition bit : ty := TypesModel.TAlias 1 Copyable.
Definition fn (n : N) : op := OFuncDefn n {| p_params := []; p_ins := [bit]; p_outs := [bit] |} true.
Definition bit_op (n : N) : op := OExt 3 n [] ([bit], [bit]).
Definition call_op : op := OCall {| p_params := []; p_ins := [bit]; p_outs := [bit] |} [] ([bit], [bit]).

(** An entry point inside a node that nothing needs is kept, but not the node around it: the result is not well formed. *)
Definition hidden : option (hugr op N) :=
  run OModule in_count out_count (new_hugr OModule 0)
    [AddChild 1%N 0%N (fn 0); AddChild 2%N 1%N (OInput [bit]); AddChild 3%N 1%N (OOutput [bit]); AddChild 4%N 1%N (ODfg ([bit], [bit]));
     AddChild 5%N 4%N (OInput [bit]); AddChild 6%N 4%N (OOutput [bit]); AddChild 7%N 4%N (bit_op 0);
     Connect 2%N 0 3%N 0; Connect 2%N 0 4%N 0; Connect 5%N 0 7%N 0; Connect 7%N 0 6%N 0; SetEntry 1%N].

Definition graph_of (x : option (hugr op N)) : hugr op N := match x with Some h => h | None => new_hugr OModule 0 end.

Lemma built_wf : forall acts, legal_run OModule in_count out_count (new_hugr OModule 0) acts ->
  wf (graph_of (run OModule in_count out_count (new_hugr OModule 0) acts)).
Proof.
  intros acts L. destruct (run OModule in_count out_count (new_hugr OModule 0) acts) as [h|] eqn:E; [|apply new_wf].
  exact (run_wf OModule in_count out_count acts _ h (new_wf OModule 0) L E).
Qed.

Lemma hidden_wf : wf (graph_of hidden).
Proof. apply built_wf. vm_compute. tauto. Qed.

Theorem dce_nested_entry_refuted : exists (h h' : hugr op N) e, wf h /\ In e (h_nodes h) /\ below h e (h_entry h) /\
  dce default_for h [e] = Some (Done h') /\ ~ wf h'.
Proof.
  exists (graph_of hidden). destruct (dce_total default_for (graph_of hidden) [7%N] hidden_wf) as [T _].
  assert (I : In 7%N (h_nodes (graph_of hidden))) by (vm_compute; tauto).
  destruct T as (h' & Ed); [intros n [<-|[]]; exact I|]. exists h', 7%N. split; [exact hidden_wf|]. split; [exact I|].
  split; [apply up_next with 4%N; [vm_compute; reflexivity|]; apply up_next with 1%N; [vm_compute; reflexivity|]; replace (h_entry _) with 1%N by (vm_compute; reflexivity); constructor|].
  split; [exact Ed|]. intros W'. assert (X : match dce default_for (graph_of hidden) [7%N] with Some (Done h') => h_parent h' 7%N = None /\ In 7%N (h_nodes h') /\ h_root h' = 0%N | _ => False end)
    by (vm_compute; tauto).
  rewrite Ed in X. destruct X as (X1 & X2 & X3). clear - W' X1 X2 X3. destruct (wf_parent _ W' 7%N) as (p & Ep & _); [exact X2|rewrite X3; discriminate|congruence].
Qed.
Print Assumptions dce_nested_entry_refuted.

(** A function that is not reachable by static edges is kept if it contains a call. *)
Definition two_functions : option (hugr op N) :=
  run OModule in_count out_count (new_hugr OModule 0)
    [AddChild 1%N 0%N (fn 0); AddChild 2%N 1%N (OInput [bit]); AddChild 3%N 1%N (OOutput [bit]); Connect 2%N 0 3%N 0;
     AddChild 4%N 0%N (fn 1); AddChild 5%N 4%N (OInput [bit]); AddChild 6%N 4%N (OOutput [bit]); AddChild 7%N 4%N call_op;
     AddChild 8%N 4%N (bit_op 0);
     Connect 5%N 0 7%N 0; Connect 7%N 0 6%N 0; Connect 1%N 0 7%N 1; Connect 5%N 0 8%N 0].

Lemma two_functions_wf : wf (graph_of two_functions).
Proof. apply built_wf. vm_compute. tauto. Qed.

Theorem dce_functions_refuted : exists (h h' : hugr op N) f, wf h /\ dce default_for h [] = Some (Done h') /\
  is_function (h_ops h f) /\ h_parent h f = Some (h_root h) /\ (forall a i j, ~ In ((f, i), (a, j)) (h_links h)) /\ In f (h_nodes h').
Proof.
  exists (graph_of two_functions). destruct (dce_total default_for (graph_of two_functions) [] two_functions_wf) as [T _].
  destruct T as (h' & Ed); [intros n []|]. exists h', 4%N. split; [exact two_functions_wf|]. split; [exact Ed|]. split; [vm_compute; exact I|]. split; [vm_compute; reflexivity|]. split.
  - assert (X : forallb (fun l => negb (N.eqb (fst (fst l)) 4)) (h_links (graph_of two_functions)) = true) by (vm_compute; reflexivity).
    rewrite forallb_forall in X. clear Ed. intros a i j J. apply X in J. discriminate.
  - assert (X : match dce default_for (graph_of two_functions) [] with Some (Done h') => In 4%N (h_nodes h') | _ => False end) by (vm_compute; tauto).
    now rewrite Ed in X.
Qed.
Print Assumptions dce_functions_refuted.

(** An operation whose result is unused, and a nested graph nobody needs, are removed. *)
Definition dce_of (x : option (hugr op N)) es := match dce default_for (graph_of x) es with Some (Done h) => Some h | _ => None end.
Example dce_nonvacuous :
  option_map h_nodes (dce_of two_functions []) = Some [7; 6; 5; 4; 3; 2; 1; 0]%N /\
  option_map (fun h => h_kids h 4%N) (dce_of two_functions []) = Some [5; 6; 7]%N /\
  option_map h_nodes (dce_of hidden []) = Some [3; 2; 1; 0]%N /\
  option_map h_links (dce_of hidden []) = Some [((2%N, 0), (3%N, 0))] /\
  option_map h_nodes (dce_of (dce_of hidden []) []) = Some [3; 2; 1; 0]%N.
Proof. vm_compute. repeat split. Qed.
Example dce_missing_entry : dce default_for (graph_of hidden) [9%N] = Some (NodeNotFound 9%N).
Proof. vm_compute. reflexivity. Qed.

(** The conditions of [dce_wf] hold of it. *)
Example scoped_nonvacuous : scoped default_for (graph_of two_functions) [].
Proof.
  set (h := graph_of two_functions).
  assert (L : h_links h = [((2%N, 0), (3%N, 0)); ((5%N, 0), (7%N, 0)); ((7%N, 0), (6%N, 0)); ((1%N, 0), (7%N, 1)); ((5%N, 0), (8%N, 0))]) by (vm_compute; reflexivity).
  assert (P : map (h_parent h) [1; 2; 3; 4; 5; 6; 7; 8]%N = map Some [0; 1; 1; 0; 4; 4; 4; 4]%N) by (vm_compute; reflexivity).
  assert (Q : map (fun n => dataflow_signature (h_ops h n)) [1; 2; 5; 7]%N = [None; Some ([], [bit]); Some ([], [bit]); Some ([bit], [bit])]) by (vm_compute; reflexivity).
  clearbody h. cbn [map] in P, Q. injection P as P1 P2 P3 P4 P5 P6 P7 P8. injection Q as Q1 Q2 Q3 Q4. constructor.
  - intros a i b j p I Ep. left. rewrite L in I. unfold below.
    repeat (destruct I as [I|I]; [injection I as <- <- <- <-; rewrite ?P2, ?P5, ?P7, ?P1 in Ep; injection Ep as <-; eauto using up|]). destruct I.
  - intros a i b j s t I Es Et C. rewrite L in I.
    repeat (destruct I as [I|I]; [injection I as <- <- <- <-; congruence|]). destruct I.
  - intros e a [].
Qed.
