(** Theorems about linking one HUGR into another (property C39). *)
From Coq Require Import List Bool NArith Arith Lia Permutation.
From Verif Require Import GraphModel GraphSpec GraphProofs GraphRemove GraphProps GraphBfs InsertModel InsertSpec InsertProofs InsertProps
  LinkModel LinkSpec LinkCheck LinkMerge LinkInsert LinkStrip.
Import ListNotations.

(** ** What is rejected *)
(** Directives pass exactly if they make sense, and an error tells the truth. *)
Theorem check_directives_exact : forall O M (other : hugr O M) parent children, wf other -> NoDup (map fst children) ->
  ((exists tr, check_directives other parent children = inl tr) <-> acceptable other parent children) /\
  (forall e, check_directives other parent children = inr e -> justified other parent children e).
Proof.
  intros O M other parent children W ND. pose proof (check_spec other W parent children ND) as C.
  destruct (check_directives other parent children) as [tr|e] eqn:E; split.
  - split; [intros _; apply C|]. eauto.
  - discriminate.
  - split; [intros (tr & X); discriminate|]. intros A. exfalso. exact (justified_wrong other parent children e C A).
  - intros e' X. injection X as <-. exact C.
Qed.
Print Assumptions check_directives_exact.

(** Both functions reject the same directives, whatever the host is; there is no result in this case. *)
Theorem link_rejected : forall O M (d : O) i o (empty : M -> bool) su sr so (h other : hugr O M) fresh parent children e,
  wf other -> NoDup (map fst children) ->
  (insert_link_view d i o empty su sr so h other fresh parent children = Rejected e <-> check_directives other parent children = inr e) /\
  (insert_link_hugr d i o su sr so h other fresh parent children = Rejected e <-> check_directives other parent children = inr e) /\
  (check_directives other parent children = inr e -> ~ acceptable other parent children /\ justified other parent children e).
Proof.
  intros O M d i o empty su sr so h other fresh parent children e W ND. unfold insert_link_view, insert_link_hugr.
  destruct (check_directives_exact O M other parent children W ND) as [_ J].
  destruct (check_directives other parent children) as [tr|e'] eqn:E.
  - split; [|split]; [split; [|discriminate]|split; [|discriminate]|discriminate].
    + destruct (insert_view_forest _ _ _ _ _ _ _ _ _) as [[h1 m]| | |]; try discriminate. destruct (link_by_node _ _ _ _); discriminate.
    + destruct (match parent with Some _ => _ | None => _ end); [|discriminate]. destruct (strip _ _ _); [|discriminate].
      destruct (insert_forest _ _ _ _ _ _ _) as [[h4 m4]| | |]; try discriminate. destruct (link_by_node _ _ _ _); discriminate.
  - split; [|split]; [split; congruence|split; congruence|]. intros X. injection X as <-. split; [|now apply J].
    intros A. exact (justified_wrong other parent children e' (J e' eq_refl) A).
Qed.
Print Assumptions link_rejected.

(** ** What is linked *)
(** The orders in which the hash maps happen to be iterated do not matter. *)
Theorem link_view_faithful : forall O M (d : O) i o (empty : M -> bool) su sr so (h other : hugr O M) fresh parent children,
  (forall l, Permutation (su l) l) -> (forall l, Permutation (sr l) l) -> (forall l, Permutation (so l) l) ->
  wf h -> wf other -> NoDup (map fst children) -> acceptable other parent children -> linkable h other parent children ->
  NoDup fresh -> (forall y, In y fresh -> ~ In y (h_nodes h)) -> length (h_nodes other) <= length fresh ->
  exists h' m f, insert_link_view d i o empty su sr so h other fresh parent children = Linked (h', m) /\
    merged h other parent children f m h' /\
    (forall x v, inserted other parent children x -> h_meta other x = Some v -> empty v = false -> h_meta h' (f x) = Some v).
Proof. intros. now apply view_linked. Qed.
Print Assumptions link_view_faithful.

(** Consuming the other HUGR gives the same, including all the metadata, except for two cases (see below). *)
Theorem link_hugr_faithful : forall O M (d : O) i o su sr so (h other : hugr O M) fresh parent children,
  (forall l, Permutation (su l) l) -> (forall l, Permutation (sr l) l) -> (forall l, Permutation (so l) l) ->
  wf h -> wf other -> NoDup (map fst children) -> acceptable other parent children -> linkable h other parent children ->
  (parent <> None -> h_entry other <> h_root other) ->
  (parent = None -> forall sn tn, In (sn, UseExisting tn) children -> h_parent other (h_entry other) <> Some sn) ->
  NoDup fresh -> (forall y, In y fresh -> ~ In y (h_nodes h)) -> length (h_nodes other) <= length fresh ->
  exists h' m f, insert_link_hugr d i o su sr so h other fresh parent children = Linked (h', m) /\
    merged h other parent children f m h' /\
    (forall x, inserted other parent children x -> h_meta h' (f x) = h_meta other x).
Proof. intros. now apply hugr_linked. Qed.
Print Assumptions link_hugr_faithful.

(** In particular: a reference to a replaced function refers to its replacement, a reference to a function that
    is not inserted refers to its substitute, and nothing refers to a removed node. *)
Theorem link_references : forall O M (h other : hugr O M) parent children f m h', acceptable other parent children ->
  merged h other parent children f m h' ->
  (forall r sn i t j, In (r, sn) (replacements children) -> In ((r, i), (t, j)) (h_links h) -> ~ gone h children t -> In ((f sn, i), (t, j)) (h_links h')) /\
  (forall sn tn i t j, NoDup (map fst children) -> In (sn, tn) (substitutes children) -> In ((sn, i), (t, j)) (h_links other) -> inserted other parent children t ->
     ~ In tn (map fst (replacements children)) -> In ((tn, i), (f t, j)) (h_links h')) /\
  (forall s i t j, In ((s, i), (t, j)) (h_links h) -> ~ gone h children s -> ~ gone h children t -> In ((s, i), (t, j)) (h_links h')) /\
  (forall l, In l (h_links h') -> In (fst (fst l)) (h_nodes h') /\ In (fst (snd l)) (h_nodes h')).
Proof.
  intros O M h other parent children f m h' A Mg. destruct (mg_links _ _ _ _ _ _ _ Mg) as (gn & ins & Gn & Ins & P).
  assert (Pi : forall l, In l (flat_map (host_link gn children f) (h_links h) ++ flat_map (new_link ins children f) (h_links other)) -> In l (h_links h'))
    by (intros l I; now apply (Permutation_in _ (Permutation_sym P))).
  assert (Ng : forall y, ~ gone h children y -> gn y = false) by (intros y N_; destruct (gn y) eqn:E; [exfalso; now apply N_, Gn|reflexivity]).
  split; [|split; [|split]].
  - intros r sn i t j Ir Il Nt. apply Pi, in_app_iff. left. apply in_flat_map. exists ((r, i), (t, j)). split; [exact Il|]. cbn [host_link].
    rewrite (Ng t Nt), (lookup_nodup _ _ r sn (ac_once _ _ _ A) Ir). now left.
  - intros sn tn i t j ND Is Il It Nr. apply Pi, in_app_iff. right. apply in_flat_map. exists ((sn, i), (t, j)). split; [exact Il|]. cbn [new_link].
    rewrite (proj2 (Ins t) It), (lookup_nodup _ _ sn tn (substitutes_nodup children ND) Is), (proj2 (lookup_None _ _ tn) Nr). now left.
  - intros s i t j Il Ns Nt. apply Pi, in_app_iff. left. apply in_flat_map. exists ((s, i), (t, j)). split; [exact Il|]. cbn [host_link].
    rewrite (Ng t Nt), (Ng s Ns). destruct (lookup (replacements children) s) as [sn|] eqn:El; [|now left]. exfalso. apply Ns. exists s.
    split; [apply lookup_In, (in_map fst) in El; exact El|]. constructor.
  - intros l I. destruct (wf_links h' (mg_wf _ _ _ _ _ _ _ Mg) l I) as [[X _] [Y _]]. auto.
Qed.
Print Assumptions link_references.

(** ** Disagreements *)
(** A module cannot be inserted as a whole by [insert_link_hugr_by_node]: it panics (the root would become its own
    child).  [insert_link_view_by_node] inserts it. *)
Theorem link_hugr_whole_panics : forall O M (d : O) i o su sr so (h other : hugr O M) fresh p,
  wf other -> h_entry other = h_root other -> insert_link_hugr d i o su sr so h other fresh (Some p) [] = LPanic.
Proof.
  intros O M d i o su sr so h other fresh p W E. unfold insert_link_hugr, check_directives, check_entry. rewrite E, N.eqb_refl. cbn [record_all].
  destruct (set_parent other (h_root other) (h_root other)) as [o1|] eqn:S; [|reflexivity]. exfalso.
  destruct (proj1 (set_parent_iff other (h_root other) (h_root other) W)) as (_ & _ & X); [eauto|]. apply X. constructor.
Qed.
Print Assumptions link_hugr_whole_panics.

Definition ports (k : nat) : nat := k.
Definition got (x : option (hugr nat nat)) : hugr nat nat := match x with Some h => h | None => host end.
Lemma got_wf : forall acts, legal_run 0 ports ports host acts -> wf (got (run 0 ports ports host acts)).
Proof.
  intros acts L. destruct (run 0 ports ports host acts) as [h|] eqn:E; [|apply new_wf].
  exact (run_wf 0 ports ports acts _ h (new_wf 0 0) L E).
Qed.
Definition link_view := insert_link_view (M := nat) 0 ports ports (fun _ => false).
Definition link_hugr := insert_link_hugr (M := nat) 0 ports ports.
Definition same (l : list (N * N)) := l.

(** Directives and HUGRs: a declaration 1 called by 3 in the host; the other HUGR defines it (1, body 2),
    and declares a function 3 that is called by 2, and has an entrypoint 4 that calls 1 (5). *)
Definition link_host : hugr nat nat := got (run 0 ports ports host
  [AddChild 1%N 0%N 1; AddChild 2%N 0%N 1; AddChild 3%N 2%N 1; Connect 1%N 0 3%N 0; SetEntry 2%N]).
Definition link_other : hugr nat nat := got (run 0 ports ports host
  [AddChild 1%N 0%N 1; AddChild 2%N 1%N 1; AddChild 3%N 0%N 1; AddChild 6%N 3%N 1; Connect 3%N 0 2%N 0; AddChild 4%N 0%N 1; AddChild 5%N 4%N 1;
   Connect 1%N 0 5%N 0; SetEntry 4%N; WriteMeta 4%N 8]).
Definition link_dirs : list (N * directive) := [(1%N, Add [1%N]); (3%N, UseExisting 2%N)].
Definition link_fresh : list N := [10; 11; 12; 13; 14; 15; 16]%N.
Lemma link_host_wf : wf link_host. Proof. apply got_wf. vm_compute. tauto. Qed.
Lemma link_other_wf : wf link_other. Proof. apply got_wf. vm_compute. tauto. Qed.

Definition shape (r : link_result (hugr nat nat * list (N * N))) :=
  match r with Linked (h, m) => Some (h_nodes h, h_links h, map (fun n => (n, h_parent h n)) (h_nodes h), m) | _ => None end.
Example link_example :
  shape (link_view same same same link_host link_other link_fresh (Some 0%N) link_dirs) =
    Some ([13; 12; 11; 10; 3; 2; 0]%N, [((12%N, 0), (11%N, 0)); ((2%N, 0), (13%N, 0)); ((12%N, 0), (3%N, 0))],
          [(13, Some 12); (12, Some 0); (11, Some 10); (10, Some 0); (3, Some 2); (2, Some 0); (0, None)]%N,
          [(2, 13); (1, 12); (5, 11); (4, 10)]%N) /\
  shape (link_hugr (@rev _) same (@rev _) link_host link_other link_fresh (Some 0%N) link_dirs) =
    Some ([14; 13; 12; 11; 3; 2; 0]%N, [((11%N, 0), (14%N, 0)); ((2%N, 0), (12%N, 0)); ((11%N, 0), (3%N, 0))],
          [(14, Some 13); (13, Some 0); (12, Some 11); (11, Some 0); (3, Some 2); (2, Some 0); (0, None)]%N,
          [(5, 14); (4, 13); (2, 12); (1, 11)]%N).
Proof. vm_compute. split; reflexivity. Qed.

(** The conditions of the theorems hold of the example. *)
Example link_nonvacuous : NoDup (map fst link_dirs) /\ acceptable link_other (Some 0%N) link_dirs /\ linkable link_host link_other (Some 0%N) link_dirs /\
  h_entry link_other <> h_root link_other.
Proof.
  assert (ND : NoDup (map fst link_dirs)) by (repeat constructor; cbn; intuition discriminate).
  split; [exact ND|]. split; [|split; [|vm_compute; discriminate]].
  - apply check_directives_exact; [exact link_other_wf|exact ND|]. eexists. vm_compute. reflexivity.
  - assert (P1 : h_parent link_host 1 = Some 0%N) by (vm_compute; reflexivity). assert (P2 : h_parent link_host 2 = Some 0%N) by (vm_compute; reflexivity).
    assert (P0 : h_parent link_host 0 = None) by (vm_compute; reflexivity).
    assert (E : h_entry link_host = 2%N /\ h_root link_host = 0%N) by (vm_compute; auto). destruct E as [E R].
    assert (Q1 : h_out link_host 1 = 1) by (vm_compute; reflexivity). assert (Q2 : h_out link_host 2 = 1) by (vm_compute; reflexivity).
    assert (Q3 : h_out link_other 1 = 1) by (vm_compute; reflexivity). assert (Q4 : h_out link_other 3 = 1) by (vm_compute; reflexivity).
    assert (L : h_links link_host = [((1%N, 0), (3%N, 0))]) by (vm_compute; reflexivity).
    assert (L' : forallb (fun l => Nat.leb (length (filter (fun l' => ep_eqb (snd l') (snd l)) (h_links link_other))) 1) (h_links link_other) = true) by (vm_compute; reflexivity).
    assert (I0 : In 0%N (h_nodes link_host)) by (vm_compute; tauto).
    assert (U : forall y, y = 0%N \/ y = 2%N -> ~ gone link_host link_dirs y).
    { intros y Hy (r & [<-|[]] & B). unfold below in B. cbn [fst] in B.
      destruct Hy as [-> | ->]; inversion B as [|? p ? Ep U]; subst; try congruence. rewrite P2 in Ep. injection Ep as <-. inversion U as [|? p ? Ep U']; subst; congruence. }
    constructor.
    + intros p X. injection X as <-. split; [exact I0|]. apply U. now left.
    + rewrite E. apply U. now right.
    + intros r sn [X|[]]. injection X as <- <-. rewrite P1, R, Q1, Q3. auto.
    + intros sn tn [X|[]]. injection X as <- <-. rewrite P2, R, Q2, Q4. auto.
    + intros l I _. rewrite L in *. destruct I as [<-|[]]. unfold only_source. cbn. auto.
    + intros l I _. rewrite forallb_forall in L'. apply L' in I. now apply Nat.leb_le in I.
Qed.

Definition is_panic (r : link_result (hugr nat nat * list (N * N))) : bool := match r with LPanic => true | _ => false end.

(** Inserting a whole module: the view variant works, the other one panics. *)
Definition whole_other : hugr nat nat := got (run 0 ports ports host [AddChild 1%N 0%N 1]).
Theorem link_hugr_whole_refuted : exists (h other : hugr nat nat) p fresh, wf h /\ wf other /\ In p (h_nodes h) /\
  acceptable other (Some p) [] /\ (exists r, link_view same same same h other fresh (Some p) [] = Linked r) /\
  link_hugr same same same h other fresh (Some p) [] = LPanic.
Proof.
  assert (W : wf whole_other) by (apply got_wf; vm_compute; tauto).
  exists link_host, whole_other, 2%N, [4; 5]%N. split; [exact link_host_wf|]. split; [exact W|]. split; [vm_compute; tauto|]. split.
  - apply check_directives_exact; [exact W|constructor|]. eexists. vm_compute. reflexivity.
  - split; [eexists; vm_compute; reflexivity|]. apply link_hugr_whole_panics; [exact W|vm_compute; reflexivity].
Qed.
Print Assumptions link_hugr_whole_refuted.

(** Without a parent, the entrypoint of the other HUGR should not matter; but [insert_link_hugr_by_node] panics if it is
    a child of a function that is not inserted. *)
Definition deep_other : hugr nat nat := got (run 0 ports ports host [AddChild 1%N 0%N 1; AddChild 2%N 1%N 1; SetEntry 2%N]).
Theorem link_hugr_existing_refuted : exists (h other : hugr nat nat) fresh children, wf h /\ wf other /\ NoDup (map fst children) /\
  acceptable other None children /\ (exists r, link_view same same same h other fresh None children = Linked r) /\
  link_hugr same same same h other fresh None children = LPanic.
Proof.
  assert (W : wf deep_other) by (apply got_wf; vm_compute; tauto). assert (ND : NoDup (map fst [(1%N, UseExisting 1%N)])) by (repeat constructor; intros []).
  exists link_host, deep_other, [4; 5; 6]%N, [(1%N, UseExisting 1%N)]. split; [exact link_host_wf|]. split; [exact W|]. split; [exact ND|]. split.
  - apply check_directives_exact; [exact W|exact ND|]. eexists. vm_compute. reflexivity.
  - split; [eexists; vm_compute; reflexivity|]. vm_compute. reflexivity.
Qed.
Print Assumptions link_hugr_existing_refuted.

(** "If [other]s entrypoint is among [children]" (linking.rs:75) is an error only if there is a parent. *)
Definition entry_other : hugr nat nat := got (run 0 ports ports host [AddChild 1%N 0%N 1; SetEntry 1%N]).
Theorem link_hugr_entry_refuted : exists (h other : hugr nat nat) fresh children r, wf h /\ wf other /\
  In (h_entry other) (map fst children) /\ link_hugr same same same h other fresh None children = Linked r.
Proof.
  eexists link_host, entry_other, [4; 5; 6]%N, [(1%N, Add [])], _. split; [exact link_host_wf|]. split; [apply got_wf; vm_compute; tauto|].
  split; [vm_compute; tauto|]. vm_compute. reflexivity.
Qed.
Print Assumptions link_hugr_entry_refuted.

(** If the parent is inside a replaced function, the node map names nodes that do not exist. *)
Definition two_other : hugr nat nat := got (run 0 ports ports host [AddChild 1%N 0%N 1; AddChild 2%N 0%N 1; SetEntry 2%N]).
Theorem link_parent_replaced_refuted : exists (h other h' : hugr nat nat) p fresh children m x y, wf h /\ wf other /\ NoDup (map fst children) /\
  acceptable other (Some p) children /\ In p (h_nodes h) /\
  link_view same same same h other fresh (Some p) children = Linked (h', m) /\ lookup m x = Some y /\ ~ In y (h_nodes h').
Proof.
  assert (W : wf two_other) by (apply got_wf; vm_compute; tauto). assert (ND : NoDup (map fst [(1%N, Add [1%N])])) by (repeat constructor; intros []).
  eexists link_host, two_other, _, 1%N, [4; 5; 6]%N, [(1%N, Add [1%N])], _, 2%N, 4%N. split; [exact link_host_wf|]. split; [exact W|]. split; [exact ND|]. split.
  - apply check_directives_exact; [exact W|exact ND|]. eexists. vm_compute. reflexivity.
  - split; [vm_compute; tauto|]. split; [vm_compute; reflexivity|]. split; [reflexivity|]. vm_compute. intuition discriminate.
Qed.
Print Assumptions link_parent_replaced_refuted.

(** If a replaced node is inside another one, the result depends on the order of iteration of a hash map. *)
Theorem link_order_refuted : exists (h other : hugr nat nat) fresh children, wf h /\ wf other /\ NoDup (map fst children) /\
  acceptable other None children /\
  is_panic (link_view same same same h other fresh None children) = false /\
  is_panic (link_view same (@rev _) same h other fresh None children) = true.
Proof.
  assert (W : wf whole_other) by (apply got_wf; vm_compute; tauto). assert (ND : NoDup (map fst [(1%N, Add [3%N; 1%N])])) by (repeat constructor; intros []).
  exists (got (run 0 ports ports host [AddChild 1%N 0%N 1; AddChild 3%N 1%N 1])), whole_other, [4; 5; 6]%N, [(1%N, Add [3%N; 1%N])].
  split; [apply got_wf; vm_compute; tauto|]. split; [exact W|]. split; [exact ND|]. split.
  - apply check_directives_exact; [exact W|exact ND|]. eexists. vm_compute. reflexivity.
  - split; vm_compute; reflexivity.
Qed.
Print Assumptions link_order_refuted.

(** [NodeMultiplyReplaced] "for multiple inserted nodes" (linking.rs:131-133) also occurs for a single one. *)
Theorem link_twice_refuted : exists (other : hugr nat nat) children tn a, wf other /\ length children = 1 /\
  check_directives other None children = inr (NodeMultiplyReplaced tn a a).
Proof.
  exists whole_other, [(1%N, Add [5%N; 5%N])], 5%N, 1%N. split; [apply got_wf; vm_compute; tauto|]. split; [reflexivity|]. vm_compute. reflexivity.
Qed.
Print Assumptions link_twice_refuted.

(** Errors. *)
Example link_errors :
  check_directives link_other (Some 0%N) [(4%N, UseExisting 2%N)] = inr (ChildContainsEntrypoint 4) /\
  check_directives link_other None [(2%N, Add [])] = inr (NotChildOfRoot 2) /\
  check_directives whole_other (Some 0%N) [(1%N, Add [])] = inr (ChildOfEntrypoint 1) /\
  check_directives deep_other (Some 0%N) [(1%N, Add [])] = inr (ChildContainsEntrypoint 1) /\
  check_directives link_other None [(1%N, Add [1%N; 2%N]); (3%N, Add [2%N])] = inr (NodeMultiplyReplaced 2 1 3).
Proof. vm_compute. repeat split. Qed.
