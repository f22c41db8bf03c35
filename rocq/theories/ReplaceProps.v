(** Theorems about replacing subgraphs (C35). *)
From Coq Require Import List Bool NArith Arith Lia Permutation Relations.
From Verif Require Import TagModel TypesModel TypesProofs GraphModel GraphSpec GraphProofs GraphRemove GraphProps Graphs OpModel OpSpec OpProofs OpProps DeadModel DeadProofs DeadProps
  ValidModel ValidSpec ValidProofs ValidEdges ValidProps InsertModel InlineModel InlineSpec InlineProofs InlineFacts
  ReplaceModel ReplaceSpec ReplaceProofs ReplaceStages ReplaceMain ReplaceValid SubgraphModel SubgraphProofs SubgraphFacts.
Import ListNotations.

(** ** Construction *)
(** The types at the boundary of a subgraph. *)
Definition has_signature {M} (h : hugr op M) (sg : subgraph) (s : sig) : Prop :=
  Forall2 (fun part t => exists e rest, part = e :: rest /\ port_type h Inc e = Some t) (sg_in sg) (fst s) /\
  Forall2 (fun e t => port_type h Out e = Some t) (sg_out sg) (snd s).

Lemma f2_impl : forall A B (P Q : A -> B -> Prop) l m, (forall a b, P a b -> Q a b) -> Forall2 P l m -> Forall2 Q l m.
Proof. intros A B P Q l m H X. induction X; constructor; auto. Qed.
Lemma all_some_iff : forall A B (f : A -> option B) l r, all_some (map f l) = Some r <-> Forall2 (fun a b => f a = Some b) l r.
Proof.
  intros A B f. induction l as [|a l IH]; intros r.
  - split; [intros E; injection E as <-; constructor|]. intros X. inversion X. reflexivity.
  - change (all_some (map f (a :: l))) with (match f a, all_some (map f l) with Some x, Some y => Some (x :: y) | _, _ => None end). split.
    + destruct (f a) as [b|] eqn:E; [|discriminate]. destruct (all_some (map f l)) as [y|] eqn:Y; [|discriminate]. intros X. injection X as <-. constructor; [exact E|]. now apply IH.
    + intros X. inversion X as [|? b ? y E Y]; subst. rewrite E. apply IH in Y. now rewrite Y.
Qed.

Lemma signature_iff : forall {M} (h : hugr op M) sg s, sg_signature h sg = Some s <-> has_signature h sg s.
Proof.
  intros M h sg [i o]. unfold sg_signature, has_signature. cbn [fst snd].
  assert (X : forall l r, all_some (map (fun part => match part with [] => None | e :: _ => port_type h Inc e end) l) = Some r <->
    Forall2 (fun part t => exists e rest, part = e :: rest /\ port_type h Inc e = Some t) l r).
  { intros l r. rewrite all_some_iff. split; intros Y; (eapply f2_impl; [|exact Y]); cbn beta.
    - intros [|e part] t E; [discriminate|]. eauto.
    - intros part t (e & rest & -> & E). exact E. }
  rewrite <- X, <- all_some_iff. destruct (all_some _) as [a|]; destruct (all_some (map (port_type h Out) (sg_out sg))) as [b|]; split; try discriminate; try (intros [P Q]; congruence).
  - intros E. injection E as <- <-. split; reflexivity.
  - intros [P Q]. injection P as <-. injection Q as <-. reflexivity.
Qed.

(** A replacement is accepted exactly if the signatures agree. *)
Theorem try_new_iff : forall {M} (h repl : hugr op M) sg, try_new h repl sg = Created <->
  exists s, has_signature h sg s /\ region (h_ops repl (h_entry repl)) (fst s) (snd s).
Proof.
  intros M h repl sg. unfold try_new. destruct (sg_signature h sg) as [s|] eqn:E.
  - pose proof (proj1 (signature_iff h sg s) E) as S_. destruct (inner_signature (h_ops repl (h_entry repl))) as [r|] eqn:R.
    + destruct (row_eqb (fst s) (fst r) && row_eqb (snd s) (snd r)) eqn:Q.
      * apply andb_true_iff in Q. destruct Q as [Q1 Q2]. apply row_eqb_iff in Q1. apply row_eqb_iff in Q2. split; [|reflexivity]. intros _. exists s. split; [exact S_|].
        apply (proj1 (op_tag_region _ _ _)). rewrite R, Q1, Q2. now destruct r.
      * split; [discriminate|]. intros (s' & S' & R'). apply signature_iff in S'. rewrite E in S'. injection S' as <-. apply (proj1 (op_tag_region _ _ _)) in R'. rewrite R in R'. injection R' as ->. cbn [fst snd] in Q.
        rewrite (proj2 (row_eqb_iff _ _) eq_refl), (proj2 (row_eqb_iff _ _) eq_refl) in Q. discriminate.
    + split; [discriminate|]. intros (s' & S' & R'). apply (proj1 (op_tag_region _ _ _)) in R'. congruence.
  - split; [discriminate|]. intros (s' & S' & _). apply signature_iff in S'. congruence.
Qed.
Print Assumptions try_new_iff.

(** The safer constructor also insists that nothing in the replacement is ordered with its boundary. *)
Theorem create_iff : forall {M} (h repl : hugr op M) sg, wf repl -> create_simple_replacement h repl sg = Created <->
  try_new h repl sg = Created /\ exists i o, get_io repl (h_entry repl) = Some (i, o) /\ order_linked repl i Out = Some false /\ order_linked repl o Inc = Some false.
Proof.
  intros M h repl sg W. unfold create_simple_replacement. destruct (flow_parent (h_ops repl (h_entry repl))) eqn:F; cbn [negb].
  - destruct (get_io repl (h_entry repl)) as [[i o]|] eqn:G.
    + destruct (order_linked repl i Out) as [[|]|] eqn:A; [| |]; [split; [discriminate|]| |split; [discriminate|]].
      * intros (_ & i' & o' & E & X & _). injection E as <- <-. congruence.
      * destruct (order_linked repl o Inc) as [[|]|] eqn:B; [split; [discriminate|]| |split; [discriminate|]].
        -- intros (_ & i' & o' & E & _ & X). injection E as <- <-. congruence.
        -- split; [intros E; split; [exact E|]; eauto|]. now intros [E _].
        -- intros (_ & i' & o' & E & _ & X). injection E as <- <-. congruence.
      * intros (_ & i' & o' & E & X & _). injection E as <- <-. congruence.
    + split; [discriminate|]. intros (_ & i & o & E & _). discriminate.
  - split; [discriminate|]. intros (_ & i & o & E & _). unfold get_io in E. rewrite F in E. discriminate.
Qed.
Print Assumptions create_iff.

(** ** Application *)
(** A subgraph that is accepted (with distinct nodes and outputs) and a valid replacement with its signature: the replacement is
    refused, and nothing happens, exactly if the region is not a dataflow region or a node is not a leaf; otherwise the result is
    a consistent graph in which everything is as specified. *)
Theorem replacement_spec : forall {M} env defs (h repl : hugr op M) sg calls fresh i o,
  wf h -> validate_subgraph h (sg_nodes sg) (sg_in sg) (sg_out sg) calls = Some None -> NoDup (sg_nodes sg) -> NoDup (sg_out sg) -> ~ In (h_entry h) (sg_nodes sg) ->
  wf repl -> valid env defs repl -> get_io repl (h_entry repl) = Some (i, o) -> own_boundary repl i o -> try_new h repl sg = Created ->
  NoDup fresh -> (forall x, In x fresh -> ~ In x (h_nodes h)) -> length (h_nodes repl) <= length fresh ->
  forall parent, sg_parent h sg = Some parent ->
  (flow_parent (h_ops h parent) = false -> apply_replacement h repl sg fresh = Refused InvalidParentNode) /\
  (flow_parent (h_ops h parent) = true -> (exists n, In n (sg_nodes sg) /\ h_kids h n <> []) -> apply_replacement h repl sg fresh = Refused InvalidRemovedNode) /\
  (flow_parent (h_ops h parent) = true -> (forall n, In n (sg_nodes sg) -> h_kids h n = []) ->
    exists h' m f, apply_replacement h repl sg fresh = Replaced h' m (map (fun n => (n, h_ops h n)) (sg_nodes sg)) /\ wf h' /\
      (forall x y, lookup m x = Some y <-> interior repl i o x /\ y = f x) /\ replaces h repl sg i o parent f h').
Proof.
  intros M env defs h repl sg calls fresh i o W A Dn Do Ne Wr V Io Own T Df Fr Len parent P.
  assert (Gp : forall n, In n (sg_nodes sg) -> get_parent h n = Some parent).
  { intros n I. pose proof (proj1 (validate_subgraph_iff h W _ _ _ _) A) as G. unfold sg_parent in P. destruct (sg_nodes sg) as [|a l] eqn:E; [discriminate|]. rewrite <- P. apply (gs_parent _ _ _ _ _ G); [exact I|now left]. }
  assert (Hp : forall n, In n (sg_nodes sg) -> h_parent h n = Some parent).
  { intros n I. specialize (Gp n I). unfold get_parent in Gp. destruct (contains h n && negb (N.eqb n (h_root h))); [exact Gp|discriminate]. }
  unfold apply_replacement, is_valid_rewrite. rewrite P. split; [|split].
  - intros F. now rewrite F.
  - intros F (n & I & K). rewrite F. cbn [negb]. match goal with |- context [forallb ?f ?l] => destruct (forallb f l) eqn:X; [|reflexivity] end.
    rewrite forallb_forall in X. specialize (X n I). apply andb_true_iff in X. destruct (h_kids h n); [congruence|]. now destruct X.
  - intros F K. assert (R : is_valid_rewrite h sg = Some None) by (apply (valid_rewrite_iff h sg W); exists parent; split; [exact P|]; split; [exact F|]; intros n I; split; [now apply Hp|now apply K]).
    destruct (accepted_subgraph_ok h sg calls W A R Dn Do Ne) as (parent' & P' & SO). rewrite P in P'. injection P' as <-.
    apply try_new_iff in T. destruct T as ([ins outs] & [S1 S2] & Rg). cbn [fst snd] in *.
    destruct (valid_replacement_ok env defs repl Wr V ins outs sg) as (i' & o' & G & _ & _ & RO).
    { now apply (proj1 (op_tag_region _ _ _)). } { exact (Forall2_len _ _ _ S1). } { exact (Forall2_len _ _ _ S2). }
    rewrite Io in G. injection G as <- <-.
    destruct (replace_with_ok h repl sg i o parent fresh W Wr SO (RO Own) Df Fr Len) as (h' & m & f & E & W' & Mp & Rp).
    unfold is_valid_rewrite in R. rewrite P in R. injection R as R. rewrite R, E. exists h', m, f. auto.
Qed.
Print Assumptions replacement_spec.

(** Replacing a single node: a leaf of a dataflow region of a valid host, by a graph with its signature. *)
Theorem node_replacement_spec : forall {M} env defs (h repl : hugr op M) n parent sg s fresh i o,
  wf h -> valid env defs h -> h_parent h n = Some parent -> flow_parent (h_ops h parent) = true -> h_kids h n = [] -> n <> h_entry h ->
  from_node h n = Some sg -> dataflow_signature (h_ops h n) = Some s -> (forall t, h_ops h n <> OLoadConstant t) ->
  wf repl -> valid env defs repl -> get_io repl (h_entry repl) = Some (i, o) -> own_boundary repl i o -> region (h_ops repl (h_entry repl)) (fst s) (snd s) ->
  NoDup fresh -> (forall x, In x fresh -> ~ In x (h_nodes h)) -> length (h_nodes repl) <= length fresh ->
  try_new h repl sg = Created /\
  exists h' m f, apply_replacement h repl sg fresh = Replaced h' m [(n, h_ops h n)] /\ wf h' /\
    (forall x y, lookup m x = Some y <-> interior repl i o x /\ y = f x) /\ replaces h repl sg i o parent f h'.
Proof.
  intros M env defs h repl n parent sg s fresh i o W V P F K Ne E S_ Nl Wr Vr Io Own Rg Df Fr Len.
  destruct (from_node_ok env defs h W V n parent P F K Ne sg E) as [SO Sn].
  destruct (from_node_signature env defs h W V n parent P F Ne sg s E S_ Nl) as (Xi & Xo & Sg).
  assert (T : try_new h repl sg = Created) by (apply try_new_iff; exists s; split; [now apply signature_iff|exact Rg]). split; [exact T|].
  destruct (valid_replacement_ok env defs repl Wr Vr (fst s) (snd s) sg) as (i' & o' & G & _ & _ & RO).
  { now apply (proj1 (op_tag_region _ _ _)). } { now rewrite Xi, map_length, seq_length. } { now rewrite Xo, map_length, seq_length. }
  rewrite Io in G. injection G as <- <-.
  destruct (replace_with_ok h repl sg i o parent fresh W Wr SO (RO Own) Df Fr Len) as (h' & m & f & E' & W' & Mp & Rp). exists h', m, f. split; [|auto].
  assert (Pg : sg_parent h sg = Some parent).
  { unfold sg_parent. rewrite Sn. unfold get_parent, contains. destruct (wf_parent_live h W n parent P) as (I & _ & R). rewrite (proj2 (memN_iff _ _) I). destruct (N.eqb_spec n (h_root h)); [contradiction|exact P]. }
  assert (R : is_valid_rewrite h sg = Some None).
  { apply (valid_rewrite_iff h sg W). exists parent. split; [exact Pg|]. split; [exact F|]. rewrite Sn. intros x [<-|[]]. auto. }
  unfold apply_replacement. now rewrite R, Pg, E', Sn.
Qed.
Print Assumptions node_replacement_spec.

(** The provider of a value is determined by the host and the replacement. *)
Theorem provider_unique : forall {M} (h repl : hugr op M) sg i o parent, wf h -> wf repl -> subgraph_ok h sg parent -> replacement_ok repl sg i o ->
  forall b d d', (match b with Repl e => out_port repl e | Host e => out_port h e end) ->
  provides h repl sg i o b d -> provides h repl sg i o b d' -> d = d'.
Proof. intros M h repl sg i o parent W Wr SO RO b d d' Ob. eapply provides_unique; eassumption. Qed.
Print Assumptions provider_unique.

Lemma forall2_filter : forall A B (R : A -> B -> Prop) (f : A -> bool) (g : B -> bool) l m, Forall2 R l m -> (forall a b, In a l -> R a b -> f a = g b) -> Forall2 R (filter f l) (filter g m).
Proof.
  intros A B R f g l m X H. induction X as [|a b l m P X IH]; [constructor|]. cbn [filter]. rewrite <- (H a b (or_introl eq_refl) P).
  assert (IH' : Forall2 R (filter f l) (filter g m)) by (apply IH; intros x y I; apply H; now right). destruct (f a); [constructor; auto|exact IH'].
Qed.

Section Consumers.
  Context {M : Type}.
  Variables h repl : hugr op M.
  Variable sg : subgraph.
  Variables i o parent : N.
  Variable f : N -> N.
  Variable h' : hugr op M.
  Hypothesis W : wf h.
  Hypothesis Wr : wf repl.
  Hypothesis SO : subgraph_ok h sg parent.
  Hypothesis RO : replacement_ok repl sg i o.
  Hypothesis R : replaces h repl sg i o parent f h'.
  Notation provides := (provides h repl sg i o).

  (** An input of the host that stays, and has one source, gets one source: the provider of the former source.
      Sources that stay are not changed. *)
  Theorem host_consumer : forall t b s, In t (h_nodes h) -> left sg t -> in_links h (t, b) = [(s, (t, b))] ->
    exists d, provides (Host s) d /\ in_links h' (t, b) = [(place f d, (t, b))] /\ (left sg (fst s) -> in_links h' (t, b) = [(s, (t, b))]).
  Proof.
    intros t b s It Lt One. destruct (rp_links _ _ _ _ _ _ _ _ R) as (stays & copies & hl & rl & P & St & Co & Fh & Fr).
    set (g := fun l : link => ep_eqb (snd l) (t, b)). pose proof (forall2_filter _ _ _ g g _ _ Fh) as X.
    assert (Y : filter g rl = []).
    { apply InlineProofs.filter_none. intros l' I. unfold g. apply not_true_is_false. intros E. apply ep_eqb_iff in E.
      assert (Z : forall ls ks, Forall2 (fun l l' : link => snd l' = place f (Repl (snd l)) /\ exists d, provides (Repl (fst l)) d /\ fst l' = place f d) ls ks -> In l' ks -> exists l, In l ls /\ snd l' = place f (Repl (snd l))).
      { intros ls ks F2 J. induction F2 as [|a c ls ks [Q1 Q2] F2 IH]; [destruct J|]. destruct J as [<-|J]; [exists a; split; [now left|exact Q1]|]. destruct (IH J) as (l & J1 & J2). exists l. split; [now right|exact J2]. }
      destruct (Z _ _ Fr I) as (l & Il & El). apply filter_In in Il. destruct Il as [Il Cl]. apply (Co l Il) in Cl. destruct Cl as [Ix _]. rewrite E in El. cbn [place] in El. injection El as Et _.
      apply (rp_fresh _ _ _ _ _ _ _ _ R _ Ix). now rewrite <- Et. }
    assert (Sl : filter g (filter stays (h_links h)) = [(s, (t, b))]).
    { rewrite filter_filter. transitivity (filter stays (filter g (h_links h))); [rewrite filter_filter; apply filter_ext; intros l; apply andb_comm|].
      change (filter g (h_links h)) with (in_links h (t, b)). rewrite One. cbn [filter]. assert (Il : In (s, (t, b)) (in_links h (t, b))) by (rewrite One; now left). apply filter_In in Il. destruct Il as [Il _].
      now rewrite (proj2 (St _ Il) Lt). }
    rewrite Sl in X. specialize (X ltac:(intros a c _ [Q _]; unfold g; now rewrite Q)). inversion X as [|? l' ? ks [Q1 (d & Pd & Q2)] X' E1 E2]; subst. inversion X'; subst.
    assert (Res : in_links h' (t, b) = [(place f d, (t, b))]).
    { change (filter g (h_links h') = [(place f d, (t, b))]). assert (Pm : Permutation (filter g (h_links h')) (filter g (hl ++ rl))) by (apply InlineProofs.filter_perm; exact P).
      rewrite filter_app, Y, app_nil_r, <- E2 in Pm. destruct l' as [u v]. cbn [fst snd] in *. subst u v. apply single_perm. now symmetry. }
    exists d. split; [exact Pd|]. split; [exact Res|]. intros Ls. rewrite Res. cbn [fst] in Pd. inversion Pd; subst; cbn [place]; [reflexivity|].
    exfalso. apply Ls. match goal with X : nth_error (sg_out sg) _ = Some s |- _ => apply nth_error_In in X; exact (proj1 (so_out _ _ _ SO s X)) end.
  Qed.

  (** An input of a copied node with one source gets the provider of that source. *)
  Theorem copy_consumer : forall x b s, interior repl i o x -> in_links repl (x, b) = [(s, (x, b))] ->
    interior repl i o (fst s) \/ fst s = i /\ snd s < length (sg_in sg) ->
    exists d, provides (Repl s) d /\ in_links h' (f x, b) = [(place f d, (f x, b))].
  Proof.
    intros x b s Ix One Src. destruct (rp_links _ _ _ _ _ _ _ _ R) as (stays & copies & hl & rl & P & St & Co & Fh & Fr).
    set (g := fun l : link => ep_eqb (snd l) (x, b)). set (g' := fun l : link => ep_eqb (snd l) (f x, b)). pose proof (forall2_filter _ _ _ g g' _ _ Fr) as X.
    assert (Y : filter g' hl = []).
    { apply InlineProofs.filter_none. intros l' I. unfold g'. apply not_true_is_false. intros E. apply ep_eqb_iff in E.
      assert (Z : forall ls ks, Forall2 (fun l l' : link => snd l' = snd l /\ exists d, provides (Host (fst l)) d /\ fst l' = place f d) ls ks -> In l' ks -> exists l, In l ls /\ snd l' = snd l).
      { intros ls ks F2 J. induction F2 as [|a c ls ks [Q1 Q2] F2 IH]; [destruct J|]. destruct J as [<-|J]; [exists a; split; [now left|exact Q1]|]. destruct (IH J) as (l & J1 & J2). exists l. split; [now right|exact J2]. }
      destruct (Z _ _ Fh I) as (l & Il & El). apply filter_In in Il. destruct Il as [Il _]. apply (rp_fresh _ _ _ _ _ _ _ _ R _ Ix). pose proof (proj1 (proj2 (wf_links h W _ Il))) as J. rewrite <- El, E in J. exact J. }
    assert (Sl : filter g (filter copies (h_links repl)) = [(s, (x, b))]).
    { rewrite filter_filter. transitivity (filter copies (filter g (h_links repl))); [rewrite filter_filter; apply filter_ext; intros l; apply andb_comm|].
      change (filter g (h_links repl)) with (in_links repl (x, b)). rewrite One. cbn [filter]. assert (Il : In (s, (x, b)) (in_links repl (x, b))) by (rewrite One; now left). apply filter_In in Il. destruct Il as [Il _].
      rewrite (proj2 (Co _ Il)); [reflexivity|]. split; [exact Ix|exact Src]. }
    rewrite Sl in X. assert (Inj : forall a c, In a (filter copies (h_links repl)) -> (snd c = place f (Repl (snd a)) /\ exists d, provides (Repl (fst a)) d /\ fst c = place f d) -> g a = g' c).
    { intros [a1 [a2 a3]] c Ia [Q _]. apply filter_In in Ia. destruct Ia as [Ia Ca]. apply (Co _ Ia) in Ca. destruct Ca as [Ca _]. cbn [fst snd] in Ca. unfold g, g'. rewrite Q. cbn [place fst snd]. unfold ep_eqb. cbn [fst snd].
      destruct (N.eqb_spec a2 x) as [->|Nx]; [now rewrite N.eqb_refl|]. destruct (N.eqb_spec (f a2) (f x)) as [E|_]; [|reflexivity]. destruct Nx. exact (rp_inj _ _ _ _ _ _ _ _ R _ _ Ca Ix E). }
    specialize (X Inj). inversion X as [|? l' ? ks [Q1 (d & Pd & Q2)] X' E1 E2]; subst. inversion X'; subst.
    exists d. split; [exact Pd|]. change (filter g' (h_links h') = [(place f d, (f x, b))]). assert (Pm : Permutation (filter g' (h_links h')) (filter g' (hl ++ rl))) by (apply InlineProofs.filter_perm; exact P).
    rewrite filter_app, Y, <- E2 in Pm. cbn [app] in Pm. destruct l' as [u v]. cbn [fst snd place] in *. subst u v. apply single_perm. now symmetry.
  Qed.

  (** *** Types *)
  Variable env : N -> N -> option typedef.
  Variable defs : N -> N -> opsig.
  Hypothesis V : valid env defs h.
  Hypothesis Vr : valid env defs repl.
  Variable calls : list (list endpoint).
  Hypothesis G : good_subgraph h (sg_nodes sg) (sg_in sg) (sg_out sg) calls.
  Variable s_ : sig.
  Hypothesis S_ : has_signature h sg s_.
  Hypothesis Sr : region (h_ops repl (h_entry repl)) (fst s_) (snd s_).

  Definition value_at (b : bport) (y : ty) : Prop := match b with Host e => kind_at h (fst e) Out (snd e) (EValue y) | Repl e => kind_at repl (fst e) Out (snd e) (EValue y) end.

  Lemma port_type_kind : forall d e y, In (fst e) (h_nodes h) -> port_type h d e = Some y -> kind_at h (fst e) d (snd e) (EValue y).
  Proof.
    intros d [n k] y I E. unfold port_type in E. cbn [fst snd] in *. destruct (dataflow_signature (h_ops h n)) as [s|] eqn:Q; [|discriminate].
    destruct (v_ports _ _ _ V n I) as (ki & ko & Pi & Po & _).
    assert (X : forall ks, ports (h_ops h n) d ks -> nth_error ks k = Some (EValue y)).
    { intros ks Pk. rewrite <- (layout_ports _ _ _ Pk). unfold layout. rewrite nth_values. unfold sig_of. rewrite Q. rewrite E.
      assert (L : k < length (side d s)) by (apply nth_error_Some; congruence). apply Nat.ltb_lt in L. now rewrite L. }
    destruct d; [exists ki|exists ko]; auto.
  Qed.

  Theorem provider_type : forall b d y, provides b d -> value_at b y -> value_at d y.
  Proof.
    destruct (ro_kids _ _ _ _ RO) as (rest & Ks). destruct (v_region _ _ _ Vr (h_entry repl) (wf_entry repl Wr) _ _ Sr) as [(a & c & rest' & K & Oi & Oo & _) _]. rewrite Ks in K. injection K as <- <- <-.
    assert (LinkK : forall (g : hugr op M) s t y, valid env defs g -> In (s, t) (h_links g) -> kind_at g (fst t) Inc (snd t) (EValue y) -> kind_at g (fst s) Out (snd s) (EValue y)).
    { intros g [s1 s2] [t1 t2] y Vg L Kt. destruct (v_links _ _ _ Vg _ _ _ _ L) as (k & A & B & _). cbn [fst snd] in *. now rewrite (kind_unique g _ _ _ _ _ B Kt) in A. }
    intros b d y Pd. induction Pd as [e L|e L|p part e s d Ep Ie Il Pd IH|q e s d Eq Il Pd IH]; intros Va; [exact Va|exact Va| |]; apply IH; cbn [value_at] in *.
    - apply (LinkK h s e y V Il). apply port_type_kind; [exact (proj1 (proj2 (wf_links h W _ Il)))|].
      destruct (gs_parts _ _ _ _ _ G part (nth_error_In _ _ Ep)) as (_ & _ & t & Ht & _). rewrite (Ht e Ie).
      destruct (Forall2_nth_l _ _ _ _ _ (proj1 S_) Ep) as (t' & Et & e0 & rest0 & -> & T). rewrite (Ht e0 (or_introl eq_refl)) in T. injection T as ->.
      destruct Va as (ks & Pk & E). cbn [fst snd] in *. rewrite Oi in Pk. inversion Pk; subst. rewrite nth_values in E. assert (Lp : p < length (fst s_)) by (apply nth_error_Some; congruence). apply Nat.ltb_lt in Lp. rewrite Lp, Et in E. now injection E as ->.
    - apply (LinkK repl s (o, q) y Vr Il). destruct (Forall2_nth_l _ _ _ _ _ (proj2 S_) Eq) as (t & Et & T).
      destruct (so_out _ _ _ SO e (nth_error_In _ _ Eq)) as [_ [Ie _]]. rewrite (kind_unique h _ _ _ _ _ Va (port_type_kind Out e t Ie T)).
      exists (values (snd s_) ++ [EOrder]). cbn [fst snd]. rewrite Oo. split; [constructor|]. rewrite nth_values, Et. assert (Lq : q < length (snd s_)) by (apply nth_error_Some; congruence). apply Nat.ltb_lt in Lq. now rewrite Lq.
  Qed.

  Lemma provider_live : forall b d, provides b d -> match b with Host e => In (fst e) (h_nodes h) | _ => True end -> match d with Host e => In (fst e) (h_nodes h) | _ => True end.
  Proof.
    intros b d Pd. induction Pd as [e L|e L|p part e s d Ep Ie Il Pd IH|q e s d Eq Il Pd IH]; intros X; [exact X|exact Logic.I| |]; apply IH; [|exact Logic.I].
    exact (proj1 (proj1 (wf_links h W _ Il))).
  Qed.

  (** So every value input of the host that stays gets a value of its type. *)
  Theorem host_consumer_typed : forall t b y, In t (h_nodes h) -> left sg t -> kind_at h t Inc b (EValue y) ->
    exists s d, in_links h (t, b) = [(s, (t, b))] /\ provides (Host s) d /\ in_links h' (t, b) = [(place f d, (t, b))] /\
      kind_at h' t Inc b (EValue y) /\ kind_at h' (fst (place f d)) Out (snd (place f d)) (EValue y).
  Proof.
    intros t b y It Lt Kt. pose proof (v_inputs _ _ _ V t b _ It Kt) as One. cbn beta iota in One. destruct (in_links h (t, b)) as [|[s t'] [|]] eqn:Q; try discriminate.
    assert (Il : In (s, t') (in_links h (t, b))) by (rewrite Q; now left). apply filter_In in Il. destruct Il as [Il E]. apply ep_eqb_iff in E. cbn in E. subst t'.
    destruct (host_consumer t b s It Lt Q) as (d & Pd & Res & _). exists s, d. split; [reflexivity|]. split; [exact Pd|]. split; [exact Res|].
    assert (Ks : value_at (Host s) y).
    { destruct s as [s1 s2]. destruct (v_links _ _ _ V _ _ _ _ Il) as (k & A & B & _). cbn. now rewrite (kind_unique h _ _ _ _ _ B Kt) in A. }
    pose proof (provider_type _ _ _ Pd Ks) as Kd. destruct (rp_host _ _ _ _ _ _ _ _ R t It Lt) as ((Ot & _) & _). split.
    { destruct Kt as (ks & Pk & Ek). exists ks. now rewrite Ot. }
    assert (Dd : match d with Host e => left sg (fst e) | Repl e => interior repl i o (fst e) end) by (clear - Pd; induction Pd; auto).
    destruct d as [e|e]; cbn [place value_at fst snd] in *; destruct Kd as (ks & Pk & Ek); exists ks; split; try exact Ek.
    - assert (Ie : In (fst e) (h_nodes h)).
      { exact (provider_live (Host s) (Host e) Pd (proj1 (proj1 (wf_links h W _ Il)))). }
      destruct (rp_host _ _ _ _ _ _ _ _ R (fst e) Ie Dd) as ((Oe & _) & _). now rewrite Oe.
    - now rewrite (proj1 (rp_copies _ _ _ _ _ _ _ _ R (fst e) Dd)).
  Qed.
End Consumers.
Print Assumptions host_consumer.
Print Assumptions copy_consumer.
Print Assumptions provider_type.
Print Assumptions host_consumer_typed.

(** ** Examples *)
(** Two operations in a row, both used; the replacement computes one value and passes its input on. *)
Definition host_acts : list (act (O := op) (M := N)) :=
  [AddChild 1%N 0%N (fn 0); AddChild 2%N 1%N (OInput [bit]); AddChild 3%N 1%N (OOutput [bit]); AddChild 4%N 1%N (ODfg ([bit], [bit; bit]));
   AddChild 5%N 4%N (OInput [bit]); AddChild 6%N 4%N (OOutput [bit; bit]); AddChild 7%N 4%N (bit_op 0); AddChild 8%N 4%N (bit_op 1);
   Connect 2%N 0 4%N 0; Connect 4%N 0 3%N 0; Connect 5%N 0 7%N 0; Connect 7%N 0 8%N 0; Connect 8%N 0 6%N 0; Connect 7%N 0 6%N 1; SetEntry 1%N].
Definition repl_acts : list (act (O := op) (M := N)) :=
  [AddChild 1%N 0%N (fn 0); AddChild 2%N 1%N (OInput [bit]); AddChild 3%N 1%N (OOutput [bit]); AddChild 4%N 1%N (ODfg ([bit], [bit; bit]));
   AddChild 5%N 4%N (OInput [bit]); AddChild 6%N 4%N (OOutput [bit; bit]); AddChild 7%N 4%N (bit_op 2);
   Connect 2%N 0 4%N 0; Connect 4%N 0 3%N 0; Connect 5%N 0 7%N 0; Connect 7%N 0 6%N 0; Connect 5%N 0 6%N 1; SetEntry 4%N].
Definition rhost := graph_of (make host_acts).
Definition rrepl := graph_of (make repl_acts).
Definition rsg := {| sg_nodes := [7%N; 8%N]; sg_in := [[(7%N, 0)]]; sg_out := [(7%N, 0); (8%N, 0)] |}.
Definition rfresh : list N := [20; 21; 22; 23; 24; 25; 26; 27; 28; 29]%N.
Definition result {M} (r : replaced (M := M)) (d : hugr op M) := match r with Replaced h _ _ => h | _ => d end.

(** Replacements: with an order edge at the boundary, with a call, and with a value from outside. *)
Definition base : list (act (O := op) (M := N)) :=
  [AddChild 1%N 0%N (fn 0); AddChild 2%N 1%N (OInput [bit]); AddChild 3%N 1%N (OOutput [bit]); AddChild 4%N 1%N (ODfg ([bit], [bit; bit]));
   AddChild 5%N 4%N (OInput [bit]); AddChild 6%N 4%N (OOutput [bit; bit]); Connect 2%N 0 4%N 0; Connect 4%N 0 3%N 0; SetEntry 4%N].
Definition ordered := graph_of (make (base ++ [AddChild 7%N 4%N (bit_op 2); Connect 5%N 0 7%N 0; Connect 5%N 1 7%N 1; Connect 7%N 0 6%N 0; Connect 5%N 0 6%N 1])).
Definition calling := graph_of (make (base ++ [AddChild 7%N 4%N call_op; AddChild 8%N 0%N (OFuncDecl 9 {| p_params := []; p_ins := [bit]; p_outs := [bit] |} true);
  Connect 8%N 0 7%N 1; Connect 5%N 0 7%N 0; Connect 7%N 0 6%N 0; Connect 5%N 0 6%N 1])).
Definition reaching := graph_of (make (base ++ [Connect 2%N 1 4%N 1; Connect 2%N 0 6%N 0; Connect 5%N 0 6%N 1])).
Lemma is_replaced : forall M (r : replaced (M := M)), match r with Replaced _ _ _ => True | _ => False end -> exists h m x, r = Replaced h m x.
Proof. intros M [e|h m x|] H; [destruct H|eauto|destruct H]. Qed.
Lemma rhost_wf : wf rhost. Proof. apply built_wf. vm_compute. tauto. Qed.
Lemma rrepl_wf : wf rrepl. Proof. apply built_wf. vm_compute. tauto. Qed.
Lemma rhost_valid : valid no_types simple_ops rhost. Proof. apply validate_accepts; [exact rhost_wf|]. vm_compute. reflexivity. Qed.
Lemma rrepl_valid : valid no_types simple_ops rrepl. Proof. apply validate_accepts; [exact rrepl_wf|]. vm_compute. reflexivity. Qed.

Example replace_nonvacuous : wf rhost /\ wf rrepl /\ valid no_types simple_ops rhost /\ valid no_types simple_ops rrepl /\
  boundary_from_nodes rhost [7%N; 8%N; 7%N] = Some (sg_nodes rsg, sg_in rsg, sg_out rsg) /\
  validate_subgraph rhost (sg_nodes rsg) (sg_in rsg) (sg_out rsg) [] = Some None /\
  get_io rrepl (h_entry rrepl) = Some (5%N, 6%N) /\ own_boundary rrepl 5%N 6%N /\
  try_new rhost rrepl rsg = Created /\ create_simple_replacement rhost rrepl rsg = Created /\
  sg_parent rhost rsg = Some 4%N /\ interior rrepl 5%N 6%N 7%N /\
  provides rhost rrepl rsg 5%N 6%N (Host (7%N, 0)) (Repl (7%N, 0)) /\ provides rhost rrepl rsg 5%N 6%N (Host (8%N, 0)) (Host (5%N, 0)) /\
  (exists h m, apply_replacement rhost rrepl rsg rfresh = Replaced h m [(7%N, bit_op 0); (8%N, bit_op 1)] /\ validate no_types simple_ops h = VOk /\
     in_links h (23%N, 0) = [((5%N, 0), (23%N, 0))] /\ in_links h (6%N, 1) = [((23%N, 0), (6%N, 1))] /\ in_links h (6%N, 0) = [((5%N, 0), (6%N, 0))] /\
     h_ops h 23%N = bit_op 2 /\ h_kids h 4%N = [5%N; 6%N; 23%N]).
Proof.
  assert (B7 : interior rrepl 5%N 6%N 7%N).
  { split; [|split; [|split]]; try (vm_compute; discriminate). apply up_next with (h_entry rrepl); [vm_compute; reflexivity|constructor]. }
  split; [exact rhost_wf|]. split; [exact rrepl_wf|]. split; [exact rhost_valid|]. split; [exact rrepl_valid|].
  split; [vm_compute; reflexivity|]. split; [vm_compute; reflexivity|]. split; [vm_compute; reflexivity|]. split.
  { intros l I. assert (L : h_links rrepl = [((2%N, 0), (4%N, 0)); ((4%N, 0), (3%N, 0)); ((5%N, 0), (7%N, 0)); ((7%N, 0), (6%N, 0)); ((5%N, 0), (6%N, 1))]) by (vm_compute; reflexivity).
    assert (E : h_entry rrepl = 4%N) by (vm_compute; reflexivity). assert (Ch : forall c, In c [5; 6; 7]%N -> below rrepl c 4%N /\ c <> 4%N).
    { intros c [<-|[<-|[<-|[]]]]; (split; [apply up_next with 4%N; [vm_compute; reflexivity|constructor]|discriminate]). }
    rewrite L in I. rewrite E. clear L E. revert Ch. generalize rrepl. intros r Ch. pose proof (Ch 5%N ltac:(cbn; tauto)). pose proof (Ch 6%N ltac:(cbn; tauto)). pose proof (Ch 7%N ltac:(cbn; tauto)). clear Ch.
    destruct I as [I|[I|[I|[I|[I|[]]]]]]; subst l; cbn [fst snd]; (split; intros X; [|]); try discriminate X; assumption. }
  split; [vm_compute; reflexivity|]. split; [vm_compute; reflexivity|]. split; [vm_compute; reflexivity|]. split; [exact B7|]. split; [|split].
  - apply pr_output with (q := 0) (s := (7%N, 0)); [reflexivity|vm_compute; tauto|]. now apply pr_repl.
  - apply pr_output with (q := 1) (s := (5%N, 0)); [reflexivity|vm_compute; tauto|]. apply pr_input with (part := [(7%N, 0)]) (e := (7%N, 0)) (s := (5%N, 0)); [reflexivity|now left|vm_compute; tauto|].
    apply pr_host. intros [X|[X|[]]]; discriminate.
  - destruct (apply_replacement rhost rrepl rsg rfresh) as [e|h m rem|] eqn:E; try (exfalso; vm_compute in E; discriminate).
    exists h, m. assert (H : result (apply_replacement rhost rrepl rsg rfresh) rhost = h) by (rewrite E; reflexivity).
    assert (Hr : match apply_replacement rhost rrepl rsg rfresh with Replaced _ _ r => r | _ => [] end = rem) by (rewrite E; reflexivity).
    assert (R : rem = [(7%N, bit_op 0); (8%N, bit_op 1)]) by (rewrite <- Hr; vm_compute; reflexivity). rewrite R. split; [reflexivity|]. rewrite <- H. clear. vm_compute. auto 10.
Qed.

(** Refusals. *)
Example replace_refused :
  apply_replacement rhost rrepl {| sg_nodes := [4%N]; sg_in := [[(4%N, 0)]]; sg_out := [(4%N, 0)] |} rfresh = Refused InvalidRemovedNode /\
  apply_replacement rhost rrepl {| sg_nodes := [1%N]; sg_in := []; sg_out := [] |} rfresh = Refused InvalidParentNode /\
  try_new rhost rrepl {| sg_nodes := [8%N]; sg_in := [[(8%N, 0)]]; sg_out := [(8%N, 0)] |} = InvalidSignature.
Proof. vm_compute. auto. Qed.

Example from_node_example : let h := graph_of (make rich_acts) in
  from_node h 32%N = Some {| sg_nodes := [32%N]; sg_in := [[(32%N, 0)]]; sg_out := [(32%N, 0)] |} /\
  from_node h 13%N = Some {| sg_nodes := [13%N]; sg_in := [[(13%N, 0)]]; sg_out := [(13%N, 0)] |} /\
  flow_parent (h_ops h 25%N) = true /\ h_parent h 32%N = Some 25%N /\ h_kids h 32%N = [].
Proof. vm_compute. auto 10. Qed.

(** ** What does not hold *)
(** The outputs of a subgraph may be changed, also by copying and by discarding.  With such a subgraph an accepted replacement gives
    one consumer of the host two sources, another none. *)
Theorem replace_boundary_refuted : exists (h repl : hugr op N) sg sg' fresh h' m rem,
  wf h /\ wf repl /\ valid no_types simple_ops h /\ valid no_types simple_ops repl /\
  validate_subgraph h (sg_nodes sg) (sg_in sg) (sg_out sg) [] = Some None /\
  set_outgoing_ports h sg [(8%N, 0); (8%N, 0)] = SetOk sg' /\ create_simple_replacement h repl sg' = Created /\
  apply_replacement h repl sg' fresh = Replaced h' m rem /\ validate no_types simple_ops h' <> VOk /\
  in_links h (6%N, 0) = [((8%N, 0), (6%N, 0))] /\ length (in_links h' (6%N, 0)) = 2 /\
  in_links h (6%N, 1) = [((7%N, 0), (6%N, 1))] /\ in_links h' (6%N, 1) = [].
Proof.
  set (sg' := {| sg_nodes := [7%N; 8%N]; sg_in := [[(7%N, 0)]]; sg_out := [(8%N, 0); (8%N, 0)] |}).
  destruct (apply_replacement rhost rrepl sg' rfresh) as [e|h m rem|] eqn:E; try (exfalso; vm_compute in E; discriminate).
  assert (H : result (apply_replacement rhost rrepl sg' rfresh) rhost = h) by (rewrite E; reflexivity).
  exists rhost, rrepl, rsg, sg', rfresh, h, m, rem. split; [exact rhost_wf|]. split; [exact rrepl_wf|]. split; [exact rhost_valid|]. split; [exact rrepl_valid|].
  split; [vm_compute; reflexivity|]. split; [vm_compute; reflexivity|]. split; [vm_compute; reflexivity|]. split; [exact E|]. rewrite <- H. clear. vm_compute. repeat split; discriminate.
Qed.
Print Assumptions replace_boundary_refuted.

(** A replacement may contain an order edge at its boundary, which is then dropped (only the second constructor looks for it); it may
    call a function, and the copied call has no function; it may use a value from outside in its result, and the application panics. *)
Theorem replace_outside_refuted : exists (h a b c : hugr op N) sg fresh ha ma ra hb mb rb,
  wf h /\ valid no_types simple_ops h /\ validate_subgraph h (sg_nodes sg) (sg_in sg) (sg_out sg) [] = Some None /\ is_valid_rewrite h sg = Some None /\
  Forall (fun r => wf r /\ valid no_types simple_ops r /\ try_new h r sg = Created) [a; b; c] /\
  create_simple_replacement h a sg = CPanic /\ create_simple_replacement h b sg = Created /\ create_simple_replacement h c sg = Created /\
  apply_replacement h a sg fresh = Replaced ha ma ra /\ in_links a (7%N, 1) <> [] /\ lookup ma 7%N = Some 23%N /\ in_links ha (23%N, 1) = [] /\
  apply_replacement h b sg fresh = Replaced hb mb rb /\ validate no_types simple_ops hb = VErr (UnconnectedPort 23%N Inc 1) /\
  apply_replacement h c sg fresh = RPanic.
Proof.
  destruct (is_replaced _ (apply_replacement rhost ordered rsg rfresh)) as (ha & ma & ra & Ea); [vm_compute; exact Logic.I|].
  destruct (is_replaced _ (apply_replacement rhost calling rsg rfresh)) as (hb & mb & rb & Eb); [vm_compute; exact Logic.I|].
  assert (Ha : result (apply_replacement rhost ordered rsg rfresh) rhost = ha) by (rewrite Ea; reflexivity).
  assert (Hm : match apply_replacement rhost ordered rsg rfresh with Replaced _ m _ => m | _ => [] end = ma) by (rewrite Ea; reflexivity).
  assert (Hb : result (apply_replacement rhost calling rsg rfresh) rhost = hb) by (rewrite Eb; reflexivity).
  exists rhost, ordered, calling, reaching, rsg, rfresh, ha, ma, ra, hb, mb, rb.
  split; [exact rhost_wf|]. split; [exact rhost_valid|]. split; [vm_compute; reflexivity|]. split; [vm_compute; reflexivity|]. split.
  { assert (X : forall acts, legal_run OModule in_count out_count (new_hugr OModule 0%N) acts -> validate no_types simple_ops (graph_of (make acts)) = VOk -> try_new rhost (graph_of (make acts)) rsg = Created ->
      wf (graph_of (make acts)) /\ valid no_types simple_ops (graph_of (make acts)) /\ try_new rhost (graph_of (make acts)) rsg = Created).
    { intros acts C A B. assert (Wf : wf (graph_of (make acts))) by (apply built_wf; exact C). split; [exact Wf|]. split; [now apply validate_accepts|exact B]. }
    unfold ordered, calling, reaching. constructor; [|constructor; [|constructor; [|constructor]]]; (apply X; [vm_compute; tauto|vm_compute; reflexivity|vm_compute; reflexivity]). }
  split; [vm_compute; reflexivity|]. split; [vm_compute; reflexivity|]. split; [vm_compute; reflexivity|]. split; [exact Ea|].
  split; [vm_compute; discriminate|]. split; [rewrite <- Hm; vm_compute; reflexivity|]. split; [rewrite <- Ha; vm_compute; reflexivity|]. split; [exact Eb|].
  split; [rewrite <- Hb; vm_compute; reflexivity|]. vm_compute. reflexivity.
Qed.
Print Assumptions replace_outside_refuted.

(** The documentation says that the signature of a single node's subgraph is that of the node.  For a node that loads a constant
    the constant is an input of the subgraph, and asking for the signature panics. *)
Theorem from_node_constant_refuted : exists (h : hugr op N) n sg s, wf h /\ valid no_types simple_ops h /\ from_node h n = Some sg /\
  dataflow_signature (h_ops h n) = Some s /\ length (sg_in sg) <> length (fst s) /\ sg_signature h sg = None.
Proof.
  exists (graph_of (make rich_acts)), 12%N, {| sg_nodes := [12%N]; sg_in := [[(12%N, 0)]]; sg_out := [(12%N, 0)] |}, ([], [bit]).
  split; [exact rich_wf|]. split; [exact rich_valid|]. vm_compute. repeat split; discriminate.
Qed.
Print Assumptions from_node_constant_refuted.
