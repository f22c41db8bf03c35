(** Theorems about inserting HUGRs (C23). *)
From Coq Require Import List Bool NArith Arith Lia Permutation.
From Verif Require Import GraphModel GraphSpec GraphProofs GraphRemove GraphBfs InsertModel InsertSpec InsertProofs InsertTree InsertForest.
Import ListNotations.

(** Inserting disjoint regions of a HUGR: every node of the regions gets a fresh copy with the same
    operation, ports, metadata and children in the same order; the copies of the roots become the last
    children of the chosen parents; the links are the old ones and the copies of those between copied
    nodes; nothing else about the host changes.  [fresh] are the indices given out by the allocator. *)
Theorem insert_forest_faithful : forall O M (d : O) i o (h other : hugr O M) fresh roots, wf h -> wf other ->
  NoDup (map fst roots) -> incl (map fst roots) (h_nodes other) -> (forall r p, In (r, p) roots -> In p (h_nodes h)) ->
  disjoint_regions other roots ->
  NoDup fresh -> (forall y, In y fresh -> ~ In y (h_nodes h)) -> length (h_nodes other) <= length fresh ->
  exists h' m f nodes, insert_forest d i o h other fresh roots = Done (h', m) /\
    NoDup nodes /\ (forall x, In x nodes <-> in_forest other roots x) /\
    (forall x y, lookup m x = Some y <-> In x nodes /\ y = f x) /\
    grafted h other nodes roots f h' /\ wf h' /\
    forall x, In x nodes -> h_ops h' (f x) = h_ops other x /\ h_meta h' (f x) = h_meta other x /\
                            h_kids h' (f x) = map f (h_kids other x).
Proof. intros. now apply forest_spec. Qed.
Print Assumptions insert_forest_faithful.

(** Regions are rejected exactly if one is inside another one, and the error names two such regions. *)
Theorem insert_forest_overlap : forall O M (d : O) i o (h other : hugr O M) fresh roots, wf other ->
  incl (map fst roots) (h_nodes other) ->
  ((exists r p, insert_forest d i o h other fresh roots = Overlap r p) <-> ~ disjoint_regions other roots) /\
  (forall r p, insert_forest d i o h other fresh roots = Overlap r p ->
     In r (map fst roots) /\ In p (map fst roots) /\ r <> p /\ below other r p).
Proof.
  intros O M d i o h other fresh roots W L.
  assert (Nov : forall nodes a b, insert_forest_internal d i o h other nodes fresh roots <> Overlap a b).
  { intros nodes a b. unfold insert_forest_internal.
    assert (G : forall ps hh mm x y, insert_nodes d i o other hh mm ps <> Overlap x y).
    { induction ps as [|[u v] ps IH]; intros hh mm x y; cbn [insert_nodes]; [discriminate|].
      destruct (add_node i o hh v d) as [h1|]; [|discriminate]. destruct (lookup mm u); [discriminate|].
      destruct (set_num_ports h1 v (h_in other u) (h_out other u)) as [h2|]; [|discriminate].
      destruct (connect_all _ h2 _) as [h3|]; [|discriminate]. destruct (connect_all _ h3 _) as [h4|]; [|discriminate]. apply IH. }
    destruct (insert_nodes d i o other h [] (combine nodes fresh)) as [[h1 m]|n|x y|] eqn:E; try discriminate; [|exfalso; exact (G _ _ _ _ _ E)].
    destruct (place_roots m h1 roots) as [h2|]; [|discriminate]. destruct (place_rest other m h2 nodes); discriminate. }
  assert (Fwd : forall r p, insert_forest d i o h other fresh roots = Overlap r p -> overlap other roots roots = Some (r, p)).
  { intros r p E. unfold insert_forest in E. destruct (overlap other roots roots) as [[a b]|] eqn:Ov; [congruence|].
    destruct (insert_forest_internal d i o h other (flat_map (fun r => descendants other (fst r)) roots) fresh roots) as [[h1 m]|n|x y|] eqn:X; try discriminate.
    exfalso. exact (Nov _ _ _ X). }
  split.
  - split.
    + intros (r & p & E) D. apply Fwd in E. apply (overlap_none other W roots L) in D. congruence.
    + intros D. destruct (overlap other roots roots) as [[r p]|] eqn:E; [|exfalso; apply D; now apply overlap_none].
      exists r, p. unfold insert_forest. now rewrite E.
  - intros r p E. apply Fwd in E. exact (overlap_some other W roots roots r p E).
Qed.
Print Assumptions insert_forest_overlap.

(** [insert_hugr] in full. *)
Theorem insert_hugr_faithful : forall O M (d : O) i o (h other : hugr O M) p fresh, wf h -> wf other -> In p (h_nodes h) ->
  NoDup fresh -> (forall y, In y fresh -> ~ In y (h_nodes h)) -> length (h_nodes other) <= length fresh ->
  exists h' m f, insert_hugr d i o h p other fresh = Done (h', m) /\ wf h' /\
    (** The node map is injective, defined on the inserted nodes, and its values are new. *)
    (forall x y, lookup m x = Some y <-> below other x (h_entry other) /\ y = f x) /\
    (forall x y, below other x (h_entry other) -> below other y (h_entry other) -> f x = f y -> x = y) /\
    (forall x, below other x (h_entry other) -> ~ In (f x) (h_nodes h)) /\
    (forall y, In y (h_nodes h') <-> In y (h_nodes h) \/ exists x, below other x (h_entry other) /\ y = f x) /\
    (** Copies *)
    (forall x, below other x (h_entry other) ->
       h_ops h' (f x) = h_ops other x /\ h_meta h' (f x) = h_meta other x /\
       h_in h' (f x) = h_in other x /\ h_out h' (f x) = h_out other x /\
       h_kids h' (f x) = map f (h_kids other x) /\
       h_parent h' (f x) = if N.eqb x (h_entry other) then Some p else option_map f (h_parent other x)) /\
    (** The host *)
    (forall y, In y (h_nodes h) -> same_node h h' y /\
       h_kids h' y = if N.eqb y p then h_kids h y ++ [f (h_entry other)] else h_kids h y) /\
    h_root h' = h_root h /\ h_entry h' = h_entry h /\
    (** Links *)
    exists nodes, (forall x, In x nodes <-> below other x (h_entry other)) /\
      Permutation (h_links h') (h_links h ++ map (move_link f) (filter (inside nodes) (h_links other))).
Proof.
  intros O M d i o h other p fresh W0 W Ip Df Fr Len.
  set (e := h_entry other).
  destruct (insert_forest_faithful O M d i o h other fresh [(e, p)] W0 W) as (h' & m & f & nodes & E & Dn & Hn & Hm & G & Wf & C); auto.
  - cbn. constructor; [intros []|constructor].
  - intros x [<-|[]]. apply (wf_entry other W).
  - intros r q [X|[]]. now injection X as _ <-.
  - intros r s [<-|[]] [<-|[]] _. reflexivity.
  - assert (Hb : forall x, In x nodes <-> below other x e).
    { intros x. rewrite Hn. unfold in_forest, below. cbn. split; [intros (r & [<-|[]] & U); exact U|]. intros U. exists e. auto. }
    exists h', m, f. split; [exact E|]. split; [exact Wf|]. split; [intros x y; now rewrite Hm, Hb|].
    split; [intros x y A B; apply Hb in A, B; now apply (gr_inj _ _ _ _ _ _ G)|].
    split; [intros x A; apply Hb in A; now apply (gr_fresh _ _ _ _ _ _ G)|].
    split.
    { intros y. rewrite (gr_nodes _ _ _ _ _ _ G). split; (intros [A|(x & A & B)]; [now left|right; exists x; split; [now apply Hb|exact B]]). }
    split.
    { intros x A. apply Hb in A. destruct (C x A) as (C1 & C2 & C3). destruct (gr_ports _ _ _ _ _ _ G x A) as [P1 P2].
      repeat split; auto. destruct (N.eqb_spec x e) as [->|Ne].
      - apply (gr_root_parent _ _ _ _ _ _ G). now left.
      - apply (gr_parent _ _ _ _ _ _ G x A). apply memN_false. cbn. intros [X|[]]. congruence. }
    split.
    { intros y Iy. destruct (gr_host _ _ _ _ _ _ G y Iy) as (A1 & A2 & A3 & A4 & A5 & A6).
      split; [repeat split; assumption|]. rewrite A6. cbn [filter snd]. rewrite (N.eqb_sym p y). destruct (N.eqb y p); cbn; [reflexivity|apply app_nil_r]. }
    split; [apply (gr_root _ _ _ _ _ _ G)|]. split; [apply (gr_entry _ _ _ _ _ _ G)|].
    exists nodes. split; [exact Hb|apply (gr_links _ _ _ _ _ _ G)].
Qed.
Print Assumptions insert_hugr_faithful.

(** Copying from a view: any set of nodes in which every node that is not a root has its parent.
    The metadata of a copy is the original's if there is some; otherwise it is whatever the index held
    before (see [insert_from_view_metadata_refuted]). *)
Theorem insert_view_forest_faithful : forall O M (d : O) i o (empty : M -> bool) (h other : hugr O M) nodes fresh roots, wf h -> wf other ->
  NoDup nodes -> incl nodes (h_nodes other) -> NoDup fresh -> (forall y, In y fresh -> ~ In y (h_nodes h)) ->
  length nodes <= length fresh -> NoDup (map fst roots) -> incl (map fst roots) nodes ->
  (forall r p, In (r, p) roots -> In p (h_nodes h)) ->
  (forall x, In x nodes -> is_root roots x = false -> exists p, h_parent other x = Some p /\ In p nodes) ->
  exists h' m f, insert_view_forest d i o empty h other nodes fresh roots = Done (h', m) /\
    (forall x y, lookup m x = Some y <-> In x nodes /\ y = f x) /\
    grafted h other nodes roots f h' /\ wf h' /\
    (forall x, In x nodes -> h_ops h' (f x) = h_ops other x) /\
    (forall x v, In x nodes -> h_meta other x = Some v -> empty v = false -> h_meta h' (f x) = Some v) /\
    (forall x, In x nodes -> match h_meta other x with Some v => empty v = true | None => True end ->
       h_meta h' (f x) = h_meta h (f x)).
Proof.
  intros O M d i o empty h other nodes fresh roots W0 W Dn Ln Df Fr Len Dr Ri Rt Cl.
  destruct (view_forest_spec d i o empty h other nodes fresh roots W0 W Dn Ln Df Fr Len Dr Ri Rt Cl) as (h' & m & f & E & Hm & G & Wf & C).
  exists h', m, f. do 4 (split; [assumption|]). split; [intros x I; apply (C x I)|]. unfold copied_meta in C. split.
  - intros x v I Ev Nv. destruct (C x I) as [_ B]. now rewrite Ev, Nv in B.
  - intros x I H. destruct (C x I) as [_ B]. destruct (h_meta other x) as [v|]; [now rewrite H in B|exact B].
Qed.
Print Assumptions insert_view_forest_faithful.

(** A node listed twice is reported, and only such nodes are. *)
Theorem insert_view_forest_duplicate : forall O M (d : O) i o (empty : M -> bool) (h other : hugr O M) nodes fresh roots, wf h -> wf other ->
  incl nodes (h_nodes other) -> NoDup fresh -> (forall y, In y fresh -> ~ In y (h_nodes h)) -> length nodes <= length fresh ->
  ((exists n, insert_view_forest d i o empty h other nodes fresh roots = Duplicate n) <-> ~ NoDup nodes) /\
  (forall n, insert_view_forest d i o empty h other nodes fresh roots = Duplicate n -> exists a b, nodes = a ++ n :: b /\ In n a).
Proof.
  intros O M d i o empty h other nodes fresh roots W0 W Ln Df Fr Len.
  assert (Fw : NoDup nodes -> forall n, insert_view_forest d i o empty h other nodes fresh roots <> Duplicate n).
  { intros Dn n. destruct (insert_nodes_spec d i o h other W0 W (combine nodes fresh) [] h (loaded_start h other)) as (h1 & E & _).
    - cbn. now rewrite combine_fst.
    - now apply combine_snd_nodup.
    - intros y I. apply Fr. now apply combine_snd in I.
    - intros x I. rewrite combine_fst in I by exact Len. now apply Ln.
    - unfold insert_view_forest, insert_forest_internal. rewrite E. destruct (place_roots _ _ _); [|discriminate]. destruct (place_rest _ _ _ _); discriminate. }
  assert (Bw : ~ NoDup nodes -> exists a x b, nodes = a ++ x :: b /\ In x a /\ insert_view_forest d i o empty h other nodes fresh roots = Duplicate x).
  { intros N0. now apply view_forest_duplicate. }
  split; [split|].
  - intros (n & E) D. exact (Fw D n E).
  - intros N0. destruct (Bw N0) as (a & x & b & _ & _ & E). eauto.
  - intros n E. destruct (ListDec.NoDup_dec N.eq_dec nodes) as [D|D]; [exfalso; exact (Fw D n E)|].
    destruct (Bw D) as (a & x & b & X & I & E'). rewrite E in E'. injection E' as <-. eauto.
Qed.
Print Assumptions insert_view_forest_duplicate.

(** [insert_from_view] copies the part below the entrypoint like [insert_hugr], except for the metadata. *)
Theorem insert_from_view_faithful : forall O M (d : O) i o (empty : M -> bool) (h other : hugr O M) p fresh, wf h -> wf other ->
  In p (h_nodes h) -> NoDup fresh -> (forall y, In y fresh -> ~ In y (h_nodes h)) -> length (h_nodes other) <= length fresh ->
  exists h' m f nodes, insert_from_view d i o empty h p other fresh = Done (h', m) /\ wf h' /\
    (forall x, In x nodes <-> below other x (h_entry other)) /\
    (forall x y, lookup m x = Some y <-> In x nodes /\ y = f x) /\
    grafted h other nodes [(h_entry other, p)] f h' /\
    (forall x, In x nodes -> h_ops h' (f x) = h_ops other x /\ h_kids h' (f x) = map f (h_kids other x)).
Proof.
  intros O M d i o empty h other p fresh W0 W Ip Df Fr Len. set (e := h_entry other). set (roots := [(e, p)]).
  assert (Lr : incl (map fst roots) (h_nodes other)) by (intros x [<-|[]]; apply (wf_entry other W)).
  assert (Dr : NoDup (map fst roots)) by (cbn; constructor; [intros []|constructor]).
  assert (Dj : disjoint_regions other roots) by (intros r s [<-|[]] [<-|[]] _; reflexivity).
  assert (Eq : flat_map (fun r : N * N => descendants other (fst r)) roots = descendants other e) by (cbn; apply app_nil_r).
  pose proof (forest_nodup other roots W Dr Lr Dj) as Dn. pose proof (forest_live other roots W Lr) as Ln.
  pose proof (forest_in other roots W Lr) as Hi. pose proof (forest_closed other roots W Lr) as Cl. pose proof (forest_roots other roots W Lr) as Ri.
  pose proof (forest_kids other roots W Dr Lr Dj) as Fk. rewrite Eq in *.
  destruct (insert_view_forest_faithful O M d i o empty h other (descendants other e) fresh roots W0 W Dn Ln Df Fr) as (h' & m & f & E & Hm & G & Wf & C & _); auto.
  - pose proof (NoDup_incl_length Dn Ln). lia.
  - intros r q [X|[]]. now injection X as _ <-.
  - exists h', m, f, (descendants other e). split; [exact E|]. split; [exact Wf|]. split.
    { intros x. rewrite Hi. unfold in_forest, below. cbn. split; [intros (r & [<-|[]] & U); exact U|]. intros U. exists e. auto. }
    split; [exact Hm|]. split; [exact G|]. intros x I. split; [now apply C|]. rewrite (gr_kids _ _ _ _ _ _ G x I). f_equal. now apply Fk.
Qed.
Print Assumptions insert_from_view_faithful.

(** ** Disagreements *)
Definition host : hugr nat nat := new_hugr 0 0.
Definition built (acts : list (act (O := nat) (M := nat))) : option (hugr nat nat) := run 0 (fun k => k) (fun k => k) host acts.

(** The copy of a node without metadata shows the metadata of a removed node if it gets its index. *)
Theorem insert_from_view_metadata_refuted : exists (h other h' : hugr nat nat) m,
  built [AddChild 1 0 1; WriteMeta 1 7; RemoveNode 1] = Some h /\ other = host /\ h_meta other 0 = None /\
  insert_from_view 0 (fun k => k) (fun k => k) (fun _ => false) h 0 other [1]%N = Done (h', m) /\
  lookup m 0 = Some 1%N /\ h_meta h' 1 = Some 7.
Proof. eexists _, host, _, _. split; [vm_compute; reflexivity|]. repeat (split; [reflexivity|]). split; reflexivity. Qed.
Print Assumptions insert_from_view_metadata_refuted.

(** "Nodes in [nodes] which are not mentioned in [root_parents] and whose parent in [other] is not in
    [nodes], will have no parent in [self]" (hugrmut.rs:300-301): instead the function panics. *)
Theorem insert_view_forest_orphan_refuted : forall O M (d : O) i o (empty : M -> bool) (h other : hugr O M) x y p, wf h -> wf other ->
  In x (h_nodes other) -> h_parent other x = Some p -> ~ In y (h_nodes h) ->
  insert_view_forest d i o empty h other [x] [y] [] = Panic.
Proof.
  intros O M d i o empty h other x y p W0 W Ix Ep Ny.
  assert (NoSelf : p <> x) by (intros ->; apply (no_cycle other W x x Ep); constructor).
  destruct (insert_nodes_spec d i o h other W0 W [(x, y)] [] h (loaded_start h other)) as (h1 & E & L).
  - cbn. constructor; [intros []|constructor].
  - cbn. constructor; [intros []|constructor].
  - intros z [<-|[]]. exact Ny.
  - intros z [<-|[]]. exact Ix.
  - unfold insert_view_forest, insert_forest_internal. cbn [combine]. rewrite E. cbn [rev app place_roots place_rest lookup]. rewrite N.eqb_refl.
    assert (Gp : get_parent h1 y = None).
    { unfold get_parent. destruct (contains h1 y && negb (N.eqb y (h_root h1))); [|reflexivity]. rewrite (ld_parent _ _ _ _ L). now apply (wf_unused h W0). }
    rewrite Gp, (get_parent_wf other x W), Ep. destruct (N.eqb_spec x p) as [->|]; [contradiction|]. reflexivity.
Qed.
Print Assumptions insert_view_forest_orphan_refuted.

(** [insert_subgraph] does not copy what is inside the nodes of the subgraph: a copied container has no
    children (and so has the function built by [SiblingSubgraph::extract_subgraph]). *)
Theorem insert_subgraph_contents_refuted : forall O M (d : O) i o (empty : M -> bool) (h other : hugr O M) p nodes fresh, wf h -> wf other ->
  In p (h_nodes h) -> NoDup nodes -> incl nodes (h_nodes other) -> NoDup fresh -> (forall y, In y fresh -> ~ In y (h_nodes h)) ->
  length nodes <= length fresh ->
  exists h' m f, insert_subgraph d i o empty h p other nodes fresh = Done (h', m) /\ wf h' /\
    (forall x y, lookup m x = Some y <-> In x nodes /\ y = f x) /\
    forall x, In x nodes -> h_ops h' (f x) = h_ops other x /\ h_parent h' (f x) = Some p /\ h_kids h' (f x) = [].
Proof.
  intros O M d i o empty h other p nodes fresh W0 W Ip Dn Ln Df Fr Len.
  assert (Ef : map fst (map (fun n => (n, p)) nodes) = nodes) by (rewrite map_map; apply map_id).
  assert (Rall : forall x, In x nodes -> is_root (map (fun n => (n, p)) nodes) x = true).
  { intros x I. unfold is_root. rewrite Ef. now apply memN_iff. }
  destruct (insert_view_forest_faithful O M d i o empty h other nodes fresh (map (fun n => (n, p)) nodes) W0 W Dn Ln Df Fr Len) as (h' & m & f & E & Hm & G & Wf & C & _).
  - now rewrite Ef.
  - rewrite Ef. apply incl_refl.
  - intros r q I. apply in_map_iff in I. destruct I as (x & X & _). now injection X as _ <-.
  - intros x I R. rewrite (Rall x I) in R. discriminate.
  - exists h', m, f. split; [exact E|]. split; [exact Wf|]. split; [exact Hm|]. intros x I. split; [now apply C|]. split.
    + apply (gr_root_parent _ _ _ _ _ _ G). apply in_map_iff. eauto.
    + rewrite (gr_kids _ _ _ _ _ _ G x I). assert (Z : forall l, incl l nodes -> filter (fun c => negb (is_root (map (fun n => (n, p)) nodes) c) && has_parent other x c) l = []).
      { induction l as [|c l IH]; intros J; [reflexivity|]. cbn [filter]. rewrite (Rall c (J c (or_introl eq_refl))). cbn [negb andb].
        apply IH. intros z Zz. apply J. now right. }
      now rewrite (Z nodes (incl_refl _)).
Qed.
Print Assumptions insert_subgraph_contents_refuted.

(** A tree with links and metadata inserted into another tree. *)
Example insert_nonvacuous : exists h other h' m,
  built [AddChild 1 0 1; AddChild 2 0 2; Connect 1 0 2 1] = Some h /\
  built [AddChild 1 0 2; AddChild 3 1 2; AddBeside false 2 3 2; AddChild 4 2 1; Connect 2 0 3 1; Connect 2 1 2 1;
         AddChild 5 0 1; Connect 5 0 3 0; WriteMeta 4 9; SetEntry 1] = Some other /\
  insert_hugr 0 (fun k => k) (fun k => k) h 2 other [8; 5; 4; 7; 6; 9]%N = Done (h', m) /\
  h_nodes h' = [7; 4; 5; 8; 2; 1; 0]%N /\ h_kids h' 2 = [8]%N /\ h_kids h' 8 = [5; 4]%N /\ h_kids h' 5 = [7]%N /\
  h_links h' = [((1%N, 0), (2%N, 1)); ((5%N, 1), (5%N, 1)); ((5%N, 0), (4%N, 1))] /\ h_meta h' 7 = Some 9 /\
  insert_forest 0 (fun k => k) (fun k => k) h other [8; 5; 4; 7; 6; 9]%N [(4, 1); (1, 2)]%N = Overlap 4 1.
Proof. eexists _, _, _, _. split; [vm_compute; reflexivity|]. split; [vm_compute; reflexivity|].
  split; [vm_compute; reflexivity|]. repeat split. Qed.
