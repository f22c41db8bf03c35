(** Theorems about the removal of unreachable functions (C30). *)
From Coq Require Import List Bool NArith Arith Lia.
From Verif Require Import TypesModel GraphModel GraphSpec GraphProofs GraphRemove GraphBfs OpModel DeadModel DeadSpec DeadProofs DeadFuncs DeadProps.
Import ListNotations.

(** The pass removes exactly the functions that are neither reachable from an entry point nor contain the
    entrypoint, with everything in them, and the result is well formed. *)
Theorem dead_funcs_exact : forall {M} (h h' : hugr op M) entries, wf h -> dead_funcs h entries = DfOk h' ->
  wf h' /\
  dropped (fun n => exists f, h_parent h f = Some (h_root h) /\ is_function (h_ops h f) /\ ~ reachable h entries f /\
                              ~ below h (h_entry h) f /\ below h n f) h h'.
Proof.
  intros M h h' entries W E. pose proof (dead_funcs_spec h entries W) as S. rewrite E in S. destruct S as (W' & R & C & X). split; [exact W'|].
  pose proof (culled_dropped h h' R W C) as D.
  assert (X' : forall n, In n R <-> exists f, h_parent h f = Some (h_root h) /\ is_function (h_ops h f) /\ ~ reachable h entries f /\
                              ~ below h (h_entry h) f /\ below h n f).
  { intros n. rewrite X. unfold dead. split; intros (f & A); exists f; tauto. }
  destruct D. constructor; auto.
  - intros m. rewrite dr_nodes, X'. reflexivity.
  - intros m N_. apply dr_same. now rewrite X'.
  - intros m p. rewrite dr_parent, !X'. reflexivity.
  - intros m N_. destruct (dr_kids m) as (f & Ef & Hf); [now rewrite X'|]. exists f. split; [exact Ef|]. intros c. now rewrite Hf, X'.
  - destruct dr_links as (f & Ef & Hf). exists f. split; [exact Ef|]. intros l. now rewrite Hf, !X'.
Qed.
Print Assumptions dead_funcs_exact.

Lemma top_unique : forall {M} (h : hugr op M), wf h -> forall m a b, h_parent h a = Some (h_root h) -> h_parent h b = Some (h_root h) ->
  below h m a -> below h m b -> a = b.
Proof.
  intros M h W m a b Pa Pb Ua. induction Ua as [a|m p a E U IH]; intros Ub.
  - inversion Ub as [|? p ? Ep Ub']; subst; [reflexivity|]. rewrite Pa in Ep. injection Ep as <-. apply (up_root h W) in Ub'. subst.
    rewrite (wf_top h W) in Pb. discriminate.
  - inversion Ub as [|? q ? Eq Ub']; subst; [|rewrite E in Eq; injection Eq as <-; auto]. rewrite Pb in E. injection E as <-.
    apply (up_root h W) in U. subst. rewrite (wf_top h W) in Pa. discriminate.
Qed.

(** A module-level function is present afterwards exactly if it is reachable or contains the entrypoint; other
    items of the module stay. *)
Theorem dead_funcs_survivors : forall {M} (h h' : hugr op M) entries f, wf h -> dead_funcs h entries = DfOk h' -> h_parent h f = Some (h_root h) ->
  (is_function (h_ops h f) -> (In f (h_nodes h') <-> reachable h entries f \/ below h (h_entry h) f)) /\
  (~ is_function (h_ops h f) -> In f (h_nodes h')).
Proof.
  intros M h h' entries f W E P. destruct (dead_funcs_exact h h' entries W E) as [_ D]. pose proof (dr_nodes _ _ _ D f) as Nd.
  assert (If : In f (h_nodes h)) by (apply (wf_parent_live h W f _ P)).
  assert (U : forall g, h_parent h g = Some (h_root h) -> below h f g -> f = g).
  { intros g Pg B. apply (top_unique h W f f g P Pg); [constructor|exact B]. }
  split; intros F.
  - rewrite Nd. split.
    + intros [_ N_]. pose proof (dead_funcs_spec h entries W) as S. rewrite E in S. destruct S as (_ & R & C & X).
      destruct (in_dec N.eq_dec f R) as [I|I].
      * exfalso. apply N_. apply X in I. destruct I as (g & (A & B & C' & D') & Bl). exists g. auto 8.
      * (** not removed, so one of the two tests succeeded *)
        destruct (memN f (h_nodes h')) eqn:Mf; [|exfalso; apply memN_false in Mf; apply Mf; apply Nd; auto].
        clear Mf Nd N_. unfold dead_funcs in E. destruct (invalid_entry h entries) as [r|] eqn:Ei.
        { pose proof (invalid_entry_spec h entries) as V. rewrite Ei in V. subst r. contradiction. }
        destruct (mg_table h (mg_nodes h)) as [t|] eqn:Et; [|discriminate]. destruct (negb _) eqn:Ef; [discriminate|].
        apply negb_false_iff in Ef. destruct (dfs _ _ _ _) as [seen|] eqn:Es; [|discriminate].
        destruct (mg_table_spec h _ t Et) as [K Us]. destruct (mg_nodes_spec h W) as [Dn G].
        set (es := entries ++ _) in *.
        assert (A : forall n, In n es -> In n (mg_nodes h)) by (intros n J; rewrite forallb_forall in Ef; now apply memN_iff, Ef).
        destruct (dfs_spec t (rev es) ltac:(rewrite K; exact Dn) (length es + list_sum (map (fun x => length (snd x)) t)) [] (rev es)) as (seen' & Es' & Hs).
        { intros n [[]|J]. now constructor. }
        { auto. }
        { intros n m []. }
        { rewrite rev_length. unfold open_edges. cbn [memN existsb negb]. rewrite filter_all by reflexivity. lia. }
        rewrite Es in Es'. injection Es' as <-. pose proof (from_reachable h entries t W Et A f) as Fr. fold es in Fr.
        destruct (memN f seen) eqn:Mf; [left; apply Fr, Hs; now apply memN_iff|]. apply memN_false in Mf.
        assert (Nr : ~ reachable h entries f) by (intros Z; apply Mf; now apply Hs, Fr).
        destruct (climbs (h_parent h) (length (h_nodes h)) (h_entry h) f) eqn:Ec.
        { right. apply climbs_iff in Ec. destruct Ec as (i & _ & Hi). apply up_hops. eauto. }
        exfalso. apply I. apply X. exists f. split; [|constructor]. split; [exact P|]. split; [exact F|]. split; [exact Nr|].
        intros B. apply (up_hops (h_parent h)) in B. destruct B as (k & Hk).
        assert (Lk : k < length (h_nodes h)).
        { eapply (hops_bound (h_parent h) (h_root h) (h_nodes h) (wf_top h W) (wf_parent h W)); [apply (wf_entry h W)| |exact Hk].
          apply (wf_reach h W), (wf_entry h W). }
        assert (climbs (h_parent h) (length (h_nodes h)) (h_entry h) f = true) by (apply climbs_iff; exists k; split; [lia|exact Hk]). congruence.
    + intros A. split; [exact If|]. intros (g & Pg & _ & N1 & N2 & B). apply (U g Pg) in B. subst g. tauto.
  - apply Nd. split; [exact If|]. intros (g & Pg & Fg & _ & _ & B). apply (U g Pg) in B. subst g. contradiction.
Qed.
Print Assumptions dead_funcs_survivors.

(** Static edges come from module-level functions or constants, or are loads of local constants. *)
Definition statics_ok {M} (h : hugr op M) : Prop :=
  forall n t, In n (h_nodes h) -> static_user (h_ops h n) -> static_link h n t ->
    (h_parent h t = Some (h_root h) /\ (is_function (h_ops h t) \/ exists v y b, h_ops h t = OConst v y b)) \/
    (h_parent h t <> Some (h_root h) /\ t <> h_entry h /\ (exists y, h_ops h n = OLoadConstant y) /\ exists v y b, h_ops h t = OConst v y b).

Lemma statics_table : forall {M} (h : hugr op M), wf h -> statics_ok h -> table_ok h.
Proof.
  intros M h W S. unfold table_ok. apply mg_table_total. intros f If. destruct (mg_nodes_spec h W) as [_ G].
  assert (Lf : In f (h_nodes h)) by (apply G in If; destruct If as [[P _]|[-> _]]; [apply (wf_parent_live h W f _ P)|apply (wf_entry h W)]).
  unfold mg_uses. destruct (concat_some_total _ (map (mg_edge h) (tl (descendants h f)))) as (o & ->); [|discriminate].
  intros x Ix. apply in_map_iff in Ix. destruct Ix as (n & <- & In_). apply (descendants_tl h W f n Lf) in In_. destruct In_ as [Ne U].
  assert (Ln : In n (h_nodes h)) by (inversion U as [|? p ? Ep _]; subst; [contradiction|apply (wf_parent_live h W n p Ep)]).
  specialize (S n). unfold mg_edge.
  assert (Go : static_user (h_ops h n) -> match static_source h n with
      | None => Some []
      | Some t =>
        if match get_parent h t with Some p => N.eqb p (h_root h) | None => false end then
          if memN t (mg_nodes h) then Some [t] else None
        else
          if negb (memN t (mg_nodes h)) && (match h_ops h n with OLoadConstant _ => true | _ => false end) &&
             (match h_ops h t with OConst _ _ _ => true | _ => false end)
          then Some [] else None
      end <> None).
  { intros Us. destruct (static_source h n) as [t|] eqn:Es; [|discriminate]. apply static_source_iff in Es. pose proof (parent_is_root h W t) as P.
    destruct (S t Ln Us Es) as [[Pt It]|(Pt & Nt & (y & Eo) & v & y' & b & Et)].
    - rewrite (proj2 P Pt). replace (memN t (mg_nodes h)) with true; [discriminate|]. symmetry. apply memN_iff, G. left. split; [exact Pt|].
      destruct It as [It|(v & y & b & ->)]; [|reflexivity]. destruct (h_ops h t); try destruct It; reflexivity.
    - destruct (match get_parent h t with Some p => N.eqb p (h_root h) | None => false end); [exfalso; apply Pt; now apply P|].
      rewrite Eo, Et. replace (memN t (mg_nodes h)) with false; [discriminate|]. symmetry. apply memN_false. rewrite G. intros [[X _]|[X _]]; contradiction. }
  destruct (h_ops h n) eqn:Eo; try discriminate; apply Go; exact I.
Qed.

(** The pass does not panic on modules whose entry points and static edges are as documented. *)
Theorem dead_funcs_total : forall {M} (h : hugr op M) entries, wf h -> statics_ok h ->
  (forall n, In n entries -> h_parent h n = Some (h_root h)) -> (h_ops h (h_entry h) = OModule -> h_entry h = h_root h) ->
  ((forall n, In n entries -> exists a f b, h_ops h n = OFuncDefn a f b) -> exists h', dead_funcs h entries = DfOk h') /\
  (forall n, In n entries -> (~ exists a f b, h_ops h n = OFuncDefn a f b) ->
     exists m, dead_funcs h entries = DfInvalid m /\ In m entries /\ ~ exists a f b, h_ops h m = OFuncDefn a f b).
Proof.
  intros M h entries W S A B. pose proof (dead_funcs_spec h entries W) as X. destruct (dead_funcs h entries) as [h'|m|] eqn:E.
  - split; [eauto|]. intros n I N_. exfalso. unfold dead_funcs in E. pose proof (invalid_entry_spec h entries) as V.
    destruct (invalid_entry h entries) as [r|]; [subst r; contradiction|]. destruct (V n I) as [_ Y]. contradiction.
  - destruct X as (I & L & N_). split.
    + intros F. exfalso. apply N_. auto.
    + intros n _ _. exists m. auto.
  - exfalso. destruct X as [(n & I & N_)|[T|[(n & I & P & _)|[P Q]]]].
    + apply N_. apply (wf_parent_live h W n _ (A n I)).
    + apply T. now apply statics_table.
    + apply P. auto.
    + apply Q. auto.
Qed.
Print Assumptions dead_funcs_total.

Lemma not_removed : forall {M} (h : hugr op M) entries n f, wf h -> h_parent h f = Some (h_root h) -> below h n f -> reachable h entries f ->
  ~ exists g, h_parent h g = Some (h_root h) /\ is_function (h_ops h g) /\ ~ reachable h entries g /\ ~ below h (h_entry h) g /\ below h n g.
Proof. intros M h entries n f W P B R (g & Pg & _ & N1 & _ & B'). apply N1. now rewrite (top_unique h W n g f Pg P B' B). Qed.

(** In a reachable function every use of a module item keeps its target. *)
Theorem dead_funcs_calls : forall {M} (h h' : hugr op M) entries f n g, wf h -> dead_funcs h entries = DfOk h' ->
  h_parent h f = Some (h_root h) -> reachable h entries f -> n <> f -> below h n f ->
  static_user (h_ops h n) -> static_link h n g -> h_parent h g = Some (h_root h) ->
  In n (h_nodes h') /\ In g (h_nodes h') /\ static_link h' n g.
Proof.
  intros M h h' entries f n g W E P R Ne B Us L Pg. destruct (dead_funcs_exact h h' entries W E) as [W' D].
  assert (Rg : reachable h entries g) by (eapply reach_next; [exact R|]; exists n; auto 8).
  assert (Nn := not_removed h entries n f W P B R). assert (Ng := not_removed h entries g g W Pg (up_here _ g) Rg).
  assert (In_ : In n (h_nodes h)) by (inversion B as [|? p ? Ep _]; subst; [contradiction|apply (wf_parent_live h W n p Ep)]).
  split; [apply (dr_nodes _ _ _ D); auto|]. split; [apply (dr_nodes _ _ _ D); split; [apply (wf_parent_live h W g _ Pg)|exact Ng]|].
  destruct L as (i & j & Ei & Ej). exists i, j. rewrite (proj1 (dr_same _ _ _ D n Nn)). split; [exact Ei|].
  destruct (dr_links _ _ _ D) as (k & Ek & Hk). unfold linked_outputs in *. rewrite Ek. clear - Ej Hk Nn Ng.
  assert (G : forall ls : list link, hd_error (map fst (filter (fun l => ep_eqb (snd l) (n, i)) ls)) = Some (g, j) ->
            hd_error (map fst (filter (fun l => ep_eqb (snd l) (n, i)) (filter k ls))) = Some (g, j)).
  { induction ls as [|l ls IH]; [discriminate|]. cbn [filter]. destruct (ep_eqb (snd l) (n, i)) eqn:El.
    - cbn [map hd_error]. intros X. apply ep_eqb_iff in El. assert (Y : fst l = (g, j)) by (injection X; auto). clear X. rename Y into X. assert (Kl : k l = true) by (apply Hk; rewrite El, X; auto).
      rewrite Kl. cbn [filter]. rewrite (proj2 (ep_eqb_iff _ _) El). cbn [map hd_error]. now rewrite X.
    - intros X. destruct (k l); [cbn [filter]; rewrite El|]; exact (IH X). }
  apply G. exact Ej.
Qed.
Print Assumptions dead_funcs_calls.

(** If the entrypoint is the module or one of its functions, this covers all surviving functions. *)
Theorem dead_funcs_surviving_calls : forall {M} (h h' : hugr op M) entries f n g, wf h -> dead_funcs h entries = DfOk h' ->
  h_entry h = h_root h \/ h_parent h (h_entry h) = Some (h_root h) ->
  h_parent h f = Some (h_root h) -> is_function (h_ops h f) -> In f (h_nodes h') -> n <> f -> below h n f ->
  static_user (h_ops h n) -> static_link h n g -> h_parent h g = Some (h_root h) ->
  In n (h_nodes h') /\ In g (h_nodes h') /\ static_link h' n g.
Proof.
  intros M h h' entries f n g W E En P F I Ne B Us L Pg. eapply (dead_funcs_calls h h' entries f); eauto.
  apply (proj1 (dead_funcs_survivors h h' entries f W E P) F) in I. destruct I as [I|I]; [exact I|]. destruct En as [En|En].
  - exfalso. rewrite En in I. apply (up_root h W) in I. subst. rewrite (wf_top h W) in P. discriminate.
  - rewrite <- (top_unique h W (h_entry h) (h_entry h) f En P (up_here _ _) I). apply reach_entry. intros X. rewrite X, (wf_top h W) in En. discriminate.
Qed.
Print Assumptions dead_funcs_surviving_calls.

(** But if the entrypoint lies inside a function, the function survives and the targets of its other calls do not. *)
Definition half_used : option (hugr op N) :=
  run OModule in_count out_count (new_hugr OModule 0)
    [AddChild 1%N 0%N (fn 0); AddChild 2%N 1%N (OInput [bit]); AddChild 3%N 1%N (OOutput [bit]); Connect 2%N 0 3%N 0;
     AddChild 4%N 0%N (fn 1); AddChild 5%N 4%N (OInput [bit]); AddChild 6%N 4%N (OOutput [bit]); AddChild 7%N 4%N call_op;
     AddChild 8%N 4%N (ODfg ([bit], [bit])); AddChild 9%N 8%N (OInput [bit]); AddChild 10%N 8%N (OOutput [bit]); Connect 9%N 0 10%N 0;
     Connect 5%N 0 8%N 0; Connect 8%N 0 7%N 0; Connect 1%N 0 7%N 1; Connect 7%N 0 6%N 0; SetEntry 8%N].

Lemma half_used_wf : wf (graph_of half_used).
Proof. apply built_wf. vm_compute. tauto. Qed.

Theorem dead_funcs_calls_refuted : exists (h h' : hugr op N) f n g, wf h /\ dead_funcs h [] = DfOk h' /\
  In f (h_nodes h') /\ is_function (h_ops h' f) /\ h_parent h' n = Some f /\ static_link h n g /\
  static_user (h_ops h' n) /\ ~ exists t, static_link h' n t.
Proof.
  assert (X : match dead_funcs (graph_of half_used) [] with
    | DfOk h' => In 4%N (h_nodes h') /\ is_function (h_ops h' 4%N) /\ h_parent h' 7%N = Some 4%N /\ static_user (h_ops h' 7%N) /\ static_source h' 7%N = None
    | _ => False end) by (vm_compute; tauto).
  assert (Y : static_source (graph_of half_used) 7%N = Some 1%N) by (vm_compute; reflexivity).
  destruct (dead_funcs (graph_of half_used) []) as [h'| |] eqn:E; try contradiction. destruct X as (X1 & X2 & X3 & X4 & X5).
  exists (graph_of half_used), h', 4%N, 7%N, 1%N. split; [exact half_used_wf|]. split; [exact E|]. split; [exact X1|]. split; [exact X2|].
  split; [exact X3|]. split; [now apply static_source_iff|]. split; [exact X4|]. intros (t & L). apply static_source_iff in L. clear E.
  rewrite X5 in L. discriminate.
Qed.
Print Assumptions dead_funcs_calls_refuted.

(** Function 4 calls function 1: with entry point 4 both stay, with entry point 1 function 4 goes. *)
Definition funcs_of (x : option (hugr op N)) es := match dead_funcs (graph_of x) es with DfOk h => Some (h_kids h 0%N) | _ => None end.
Example dead_funcs_nonvacuous :
  funcs_of two_functions [4%N] = Some [1; 4]%N /\ funcs_of two_functions [1%N] = Some [1%N] /\ funcs_of two_functions [] = Some [] /\
  funcs_of half_used [] = Some [4%N] /\ dead_funcs (graph_of two_functions) [7%N] = DfInvalid 7%N.
Proof. vm_compute. repeat split. Qed.

Example statics_ok_nonvacuous : statics_ok (graph_of two_functions).
Proof.
  intros n t I Us L. apply static_source_iff in L. left.
  assert (X : forallb (fun n => match static_source (graph_of two_functions) n with Some t => N.eqb t 1 | None => true end) (h_nodes (graph_of two_functions)) = true) by (vm_compute; reflexivity).
  rewrite forallb_forall in X. apply X in I. rewrite L in I. apply N.eqb_eq in I. subst t. split; [vm_compute; reflexivity|]. left. vm_compute. exact Logic.I.
Qed.
