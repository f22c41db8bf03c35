(** Theorems about the validation of a HUGR (C26, C27, C28). *)
From Coq Require Import List Bool NArith Arith Lia Relations.
From Verif Require Import TypesModel GraphModel GraphSpec GraphProofs GraphRemove Graphs InsertForest OpModel OpSpec OpProofs
  DeadModel DeadProps ValidModel ValidSpec ValidProofs ValidEdges ValidNodes.
Import ListNotations.

(** Validation accepts exactly the valid graphs. *)
Theorem validate_accepts : forall {M} env defs (h : hugr op M), wf h -> validate env defs h = VOk <-> valid env defs h.
Proof. intros M env defs h W. exact (validate_iff env defs h W). Qed.
Print Assumptions validate_accepts.

(** ** C26: cycles *)
(** The check of a region never panics, and reports the region exactly if there is a cycle. *)
Theorem dag_exact : forall {M} (h : hugr op M) p, wf h ->
  (validate_children_dag h p = VOk <-> acyclic (sibling_edge h p)) /\
  (validate_children_dag h p = VErr (NotADag p) <-> ~ acyclic (sibling_edge h p)).
Proof.
  intros M h p W. pose proof (dag_iff h W p) as D. split; [exact D|].
  assert (X : validate_children_dag h p = VOk \/ validate_children_dag h p = VErr (NotADag p)).
  { unfold validate_children_dag. destruct (h_kids h p); [now left|]. destruct (topo_order_spec h W p) as (l' & -> & _). unfold vcheck. destruct (Nat.eqb _ _); auto. }
  rewrite <- D. destruct X as [-> | ->]; (split; [discriminate|tauto]).
Qed.
Print Assumptions dag_exact.

(** The operations whose value is static. *)
Definition static_op (o : op) : Prop := match o with OConst _ _ _ | OFuncDefn _ _ _ | OFuncDecl _ _ _ => True | _ => False end.
Definition static_kind (k : ekind) : Prop := match k with EConst _ | EFunction _ => True | _ => False end.

Lemma static_source : forall o ks i k, ports o Out ks -> nth_error ks i = Some k -> static_kind k -> static_op o.
Proof.
  intros o ks i k P E K. inversion P; subst; try exact I; exfalso; apply nth_error_In in E; unfold values in E;
    repeat (rewrite ?in_app_iff, ?in_map_iff in E; cbn [In] in E);
    repeat match goal with X : _ \/ _ |- _ => destruct X | X : exists _, _ |- _ => destruct X | X : _ /\ _ |- _ => destruct X | X : False |- _ => destruct X end;
    subst; cbn in K; contradiction.
Qed.

Lemma static_no_inputs : forall o ks, ports o Inc ks -> static_op o -> ks = [].
Proof. intros o ks P S. inversion P; subst; try destruct S; reflexivity. Qed.

Lemma function_outputs : forall n f p ks i k, ports (OFuncDefn n f p) Out ks -> nth_error ks i = Some k -> static_kind k.
Proof. intros n f p ks i k P E. inversion P; subst. destruct i as [|[|i]]; inversion E. exact I. Qed.

Section Valid.
  Context {M : Type}.
  Variable env : N -> N -> option typedef.
  Variable defs : N -> N -> opsig.
  Variable h : hugr op M.
  Hypothesis W : wf h.
  Hypothesis V : valid env defs h.

  Lemma child_unique : forall p a b d, h_parent h a = Some p -> h_parent h b = Some p -> below h d a -> below h d b -> a = b.
  Proof.
    assert (X : forall p a b, h_parent h a = Some p -> h_parent h b = Some p -> up (h_parent h) a b -> a = b).
    { intros p a b A B U. destruct (up_split h a b U) as [->|(q & Q & U')]; [reflexivity|]. rewrite A in Q. injection Q as <-.
      exfalso. exact (no_cycle h W b p B U'). }
    intros p a b d A B U U'. destruct (up_linear _ _ _ _ U U') as [Y|Y]; [|symmetry]; eauto.
  Qed.

  Lemma below_parent : forall n p a, h_parent h n = Some p -> below h n a -> n <> a -> below h p a.
  Proof. intros n p a P U Ne. destruct (up_split h n a U) as [->|(q & Q & U')]; [congruence|]. rewrite P in Q. now injection Q as <-. Qed.

  Lemma parent_below : forall n p a, h_parent h n = Some p -> below h p a -> below h n a.
  Proof. intros n p a P U. now apply up_next with p. Qed.

  (** A node depends on another one of the same region if something inside it uses something inside the other. *)
  Definition dependency (p a b : N) : Prop := h_parent h a = Some p /\ h_parent h b = Some p /\ a <> b /\
    exists s i d j, In ((s, i), (d, j)) (h_links h) /\ below h s a /\ below h d b.

  Lemma no_input : forall s i d j, In ((s, i), (d, j)) (h_links h) -> ~ static_op (h_ops h d).
  Proof.
    intros s i d j L S. destruct (v_links _ _ _ V s i d j L) as (k & _ & (ks & P & E) & _). apply static_no_inputs in P; [|exact S]. subst. destruct j; discriminate.
  Qed.

  Lemma dependency_cases : forall p a b ins outs, region (h_ops h p) ins outs -> dependency p a b ->
    sibling_edge h p a b \/ (static_op (h_ops h a) /\ forall c, ~ dependency p c a).
  Proof.
    intros p a b ins outs R (Pa & Pb & Ne & s & i & d & j & L & Ua & Ub).
    destruct (v_links _ _ _ V s i d j L) as (k & Ks & Kd & Lo).
    assert (Q : forall q, h_parent h s = Some q -> below h d q -> s <> a -> False).
    { intros q Pq Uq Nq. apply Ne. apply (child_unique p a b d); try assumption. eapply up_trans; [exact Uq|]. exact (below_parent s q a Pq Ua Nq). }
    destruct Lo as [q Ps Pd|q K Ps Ud Nd|t q x _ _ Ps Px Ud Nd (i' & j' & _ & L')|t y c g x _ _ Ps Py Oc Px Ud Nd Nx _].
    - destruct (N.eq_dec s a) as [->|Ns]; [|exfalso; apply (Q q Ps); [|exact Ns]; apply up_next with q; [exact Pd|constructor]].
      left. rewrite Pa in Ps. injection Ps as <-. assert (d = b) by (apply (child_unique p d b d); try assumption; constructor). subst.
      split; [assumption|]. split; [assumption|]. eauto.
    - destruct (N.eq_dec s a) as [->|Ns]; [|exfalso; now apply (Q q Ps)]. right. rewrite Pa in Ps. injection Ps as <-.
      assert (S : static_op (h_ops h a)).
      { destruct Ks as (ks & P & E). eapply static_source; [exact P|exact E|]. destruct K as [(t & ->)|(f & ->)]; exact Logic.I. }
      split; [exact S|]. intros c (Pc & _ & Nc & s' & i' & d' & j' & L' & _ & Ud'). destruct (up_last h d' a Ud') as [->|(x & Ux & Px)].
      + exact (no_input _ _ _ _ L' S).
      + pose proof (v_tree _ _ _ V x a Px) as T. pose proof (v_tree _ _ _ V a p Pa) as T'.
        destruct (h_ops h a); try contradiction.
        * inversion T' as [? ? ? Hp| | | | | | | | | | |p' i0 o0 c0 R' D]; [|inversion D]. rewrite <- Hp in R. inversion R.
        * inversion T; subst; match goal with X : region _ _ _ |- _ => inversion X end.
        * inversion T; subst; match goal with X : region (OConst _ _ _) _ _ |- _ => inversion X end.
    - destruct (N.eq_dec s a) as [->|Ns].
      + left. rewrite Pa in Ps. injection Ps as <-. assert (x = b) by (apply (child_unique p x b d); assumption). subst. split; [assumption|]. split; [assumption|]. eauto.
      + exfalso. apply (Q q Ps); [|exact Ns]. eapply up_trans; [exact Ud|]. apply up_next with q; [exact Px|constructor].
    - exfalso. destruct (N.eq_dec s a) as [->|Ns].
      + rewrite Pa in Ps. injection Ps as <-. apply Nx. apply (child_unique c p x d); try assumption. eapply up_trans; [exact Ub|]. apply up_next with p; [exact Pb|constructor].
      + pose proof (below_parent s y a Ps Ua Ns) as Uy. destruct (N.eq_dec y a) as [->|Ny].
        * rewrite Pa in Py. injection Py as <-. rewrite Oc in R. inversion R.
        * apply Ne. apply (child_unique p a b d); try assumption. eapply up_trans; [exact Ud|]. apply up_next with c; [exact Px|]. exact (below_parent y c a Py Uy Ny).
  Qed.

  (** In a valid graph the nodes of a dataflow region can be evaluated one after the other, even if edges into
      nested regions are counted. *)
  Theorem valid_dependencies_acyclic : forall p ins outs, region (h_ops h p) ins outs -> acyclic (dependency p).
  Proof.
    intros p ins outs R x C.
    assert (Pin : forall a b, path (dependency p) a b -> exists c, dependency p c b).
    { intros a b P. induction P as [a b E|a b c _ _ _ IH]; [eauto|exact IH]. }
    assert (X : forall a b, path (dependency p) a b -> (exists c, dependency p c a) -> path (sibling_edge h p) a b).
    { intros a b P. induction P as [a b E|a b c P1 IH1 P2 IH2]; intros (z & Z).
      - constructor. destruct (dependency_cases p a b ins outs R E) as [Y|[_ Y]]; [exact Y|]. exfalso. exact (Y z Z).
      - eapply t_trans; [apply IH1; eauto|]. apply IH2. apply (Pin a b P1). }
    destruct (wf_parent_live h W x p) as (_ & Ip & _).
    { clear - C. induction C as [a b E|a b c _ _ _ IH]; [apply E|exact IH]. }
    destruct (v_region _ _ _ V p Ip ins outs R) as [_ A]. apply (A x). apply X; [exact C|]. exact (Pin x x C).
  Qed.

  (** ** C27: wiring *)
  (** A function definition is a child of the module, or the root. *)
  Lemma function_parent : forall f p name s pub, h_ops h f = OFuncDefn name s pub -> h_parent h f = Some p -> h_ops h p = OModule /\ h_parent h p = None.
  Proof.
    intros f p name s pub O P. pose proof (v_tree _ _ _ V f p P) as T. rewrite O in T.
    inversion T as [? ? ? Hp| | | | | | | | | | |p' i0 o0 c0 R' D]; [|inversion D]. split; [reflexivity|].
    destruct (h_parent h p) as [g|] eqn:G; [|reflexivity]. exfalso. pose proof (v_tree _ _ _ V p g G) as T'. rewrite <- Hp in T'.
    inversion T' as [| | | | | | | | | | |p' i0 o0 c0 R' D]. inversion D.
  Qed.

  (** Values used once, inputs with one source, equal kinds, and no edge into or out of a function but static ones. *)
  Theorem valid_wiring :
    (forall n i k, In n (h_nodes h) -> kind_at h n Out i k -> linear_kind k -> exists d j, out_links h (n, i) = [((n, i), (d, j))]) /\
    (forall n i k, In n (h_nodes h) -> kind_at h n Inc i k -> (exists t, k = EValue t \/ k = EConst t) -> exists s j, in_links h (n, i) = [((s, j), (n, i))]) /\
    (forall n i f, In n (h_nodes h) -> kind_at h n Inc i (EFunction f) -> in_links h (n, i) <> []) /\
    (forall s i d j, In ((s, i), (d, j)) (h_links h) -> exists k, kind_at h s Out i k /\ kind_at h d Inc j k /\
       (static_kind k \/ forall f name g pub, h_ops h f = OFuncDefn name g pub -> (below h s f <-> below h d f))).
  Proof.
    split; [|split; [|split]].
    - intros n i k I K L. pose proof (v_outputs _ _ _ V n i k I K L) as X.
      assert (F : forall l, In l (out_links h (n, i)) -> fst l = (n, i)) by (intros l Il; apply filter_In in Il; apply ep_eqb_iff; apply Il).
      destruct (out_links h (n, i)) as [|[a [d j]] [|]]; try discriminate. exists d, j. specialize (F _ (or_introl eq_refl)). cbn in F. now subst.
    - intros n i k I K L. pose proof (v_inputs _ _ _ V n i k I K) as X.
      assert (Y : length (in_links h (n, i)) = 1) by (destruct L as (t & [-> | ->]); exact X). clear X.
      assert (F : forall l, In l (in_links h (n, i)) -> snd l = (n, i)) by (intros l Il; apply filter_In in Il; apply ep_eqb_iff; apply Il).
      destruct (in_links h (n, i)) as [|[[s j] a] [|]]; try discriminate. exists s, j. specialize (F _ (or_introl eq_refl)). cbn in F. now subst.
    - intros n i f I K. exact (v_inputs _ _ _ V n i _ I K).
    - intros s i d j L. destruct (v_links _ _ _ V s i d j L) as (k & Ks & Kd & Lo). exists k. split; [exact Ks|]. split; [exact Kd|].
      destruct k as [|t|t|f|]; try (left; exact Logic.I); right; intros f name g pub Of.
      all: assert (Nsf : s <> f) by (intros ->; destruct Ks as (ks & P & E); rewrite Of in P; now pose proof (function_outputs _ _ _ _ _ _ P E)).
      all: assert (Nt : forall s i j, ~ In ((s, i), (f, j)) (h_links h)) by (intros s' i' j' L'; apply (no_input _ _ _ _ L'); now rewrite Of).
      all: assert (Ndf : d <> f) by (intros ->; exact (Nt _ _ _ L)).
      all: assert (In_f : forall x q, h_parent h x = Some q -> below h d x -> x <> f -> below h d f -> below h q f)
        by (intros x q Px Ux Nx Uf; destruct (up_linear _ _ _ _ Ux Uf) as [Y|Y]; [exact (below_parent x q f Px Y Nx)|];
            destruct (up_split h f x Y) as [->|(m & Pm & Ym)]; [congruence|]; destruct (function_parent f m _ _ _ Of Pm) as [_ Top];
            destruct (up_split h m x Ym) as [->|(m' & Pm' & _)]; congruence).
      all: destruct Lo as [q Ps Pd|q K Ps Ud Nd|t' q x _ _ Ps Px Ud Nd (i' & j' & _ & L')|t' y c g' x _ _ Ps Py Oc Px Ud Nd Nx _].
      all: try (destruct K as [(? & K)|(? & K)]; discriminate).
      all: split; intros U.
      all: try (apply (below_parent s q f Ps) in U; [|exact Nsf]; solve [now apply (parent_below d q f)
        |eapply up_trans; [exact Ud|]; now apply (parent_below x q f)]).
      all: try (apply (parent_below s q f Ps); solve [exact (below_parent d q f Pd U Ndf)
        |apply (In_f x q Px Ud); [intros ->; exact (Nt _ _ _ L')|exact U]]).
      all: assert (Nyf : forall y, h_parent h y = Some c -> y <> f) by (intros z Pz ->; destruct (function_parent f c _ _ _ Of Pz) as [Y _]; congruence).
      all: try (apply (below_parent s y f Ps) in U; [|exact Nsf]; apply (below_parent y c f Py) in U; [|exact (Nyf y Py)];
        eapply up_trans; [exact Ud|]; now apply (parent_below x c f)).
      all: apply (parent_below s y f Ps), (parent_below y c f Py), (In_f x c Px Ud); [exact (Nyf x Px)|exact U].
  Qed.

  (** ** C28: containers *)
  Theorem valid_structure :
    (forall n p, h_parent h n = Some p -> allowed (h_ops h p) (h_ops h n)) /\
    (forall n ins outs, In n (h_nodes h) -> region (h_ops h n) ins outs ->
       exists a b rest, h_kids h n = a :: b :: rest /\ h_ops h a = OInput ins /\ h_ops h b = OOutput outs /\ forall c, In c rest -> ~ boundary (h_ops h c)) /\
    (forall n rows other outs, In n (h_nodes h) -> h_ops h n = OConditional rows other outs ->
       Forall2 (fun r c => h_ops h c = OCase (r ++ other, outs)) rows (h_kids h n)) /\
    (forall n ins outs, In n (h_nodes h) -> h_ops h n = OCfg (ins, outs) ->
       (exists a b rest oo rows, h_kids h n = a :: b :: rest /\ h_ops h a = OBlock ins oo rows /\ h_ops h b = OExit outs /\ forall c, In c rest -> ~ exit_op (h_ops h c)) /\
       (forall a x other rows i r, h_parent h a = Some n -> h_ops h a = OBlock x other rows -> nth_error rows i = Some r ->
          exists b, out_links h (a, i) = [((a, i), (b, 0))] /\ h_parent h b = Some n /\
            ((exists oo rs, h_ops h b = OBlock (r ++ other) oo rs) \/ h_ops h b = OExit (r ++ other)))).
  Proof.
    split; [exact (v_tree _ _ _ V)|]. split; [intros n ins outs I R; exact (proj1 (v_region _ _ _ V n I ins outs R))|].
    split; [intros n rows other outs I O; exact (proj2 (v_conditional _ _ _ V n I rows other outs O))|].
    intros n ins outs I O. destruct (v_cfg _ _ _ V n I ins outs O) as [(a & b & rest & K & (oo & rows & A) & B & D) E].
    split; [exists a, b, rest, oo, rows; auto|]. clear a b rest K oo rows A B D.
    intros a x other rows i r Pa Oa Er. destruct (wf_parent_live h W a n Pa) as (Ia & _).
    assert (Ka : kind_at h a Out i EControl).
    { exists (map (fun _ => EControl) rows). rewrite Oa. split; [constructor|]. now rewrite nth_error_map, Er. }
    destruct (proj1 valid_wiring a i EControl Ia Ka Logic.I) as (b & j & L).
    assert (Lb : In ((a, i), (b, j)) (h_links h)).
    { assert (X : In ((a, i), (b, j)) (out_links h (a, i))) by (rewrite L; now left). now apply filter_In in X. }
    destruct (v_links _ _ _ V a i b j Lb) as (k & Ks & Kd & Lo).
    assert (k = EControl).
    { destruct Ks as (ks & P & Ek). rewrite Oa in P. inversion P; subst. rewrite nth_error_map, Er in Ek. cbn in Ek. congruence. }
    subst k. assert (Pb : h_parent h b = Some n).
    { destruct Lo as [q Ps Pd|q [(t & K)|(f & K)]|t q y K|t y c g z K]; try discriminate. congruence. }
    destruct (E a b i j Pa Pb Lb) as (x' & other' & rows' & r' & Oa' & Er' & T). rewrite Oa in Oa'. injection Oa' as <- <- <-. rewrite Er in Er'. injection Er' as <-.
    exists b. split; [|split; [exact Pb|exact T]]. rewrite L. repeat f_equal.
    destruct Kd as (ks & P & Ek). destruct T as [(o1 & r1 & Ob)|Ob]; rewrite Ob in P; inversion P; subst; destruct j as [|[|]]; cbn in Ek; congruence.
  Qed.
End Valid.
Print Assumptions valid_dependencies_acyclic.
Print Assumptions valid_wiring.
Print Assumptions valid_structure.

(** Hence of accepted graphs: *)
Theorem validate_sound : forall {M} env defs (h : hugr op M), wf h -> validate env defs h = VOk ->
  (forall p ins outs, region (h_ops h p) ins outs -> acyclic (dependency h p)) /\
  (forall n i k, In n (h_nodes h) -> kind_at h n Out i k -> linear_kind k -> exists d j, out_links h (n, i) = [((n, i), (d, j))]) /\
  (forall n p, h_parent h n = Some p -> allowed (h_ops h p) (h_ops h n)).
Proof.
  intros M env defs h W E. apply (validate_accepts env defs h W) in E. split; [|split].
  - exact (valid_dependencies_acyclic env defs h W E).
  - exact (proj1 (valid_wiring env defs h E)).
  - exact (proj1 (valid_structure env defs h W E)).
Qed.
Print Assumptions validate_sound.

(** ** Examples *)
Definition no_types (e n : N) : option typedef := None.
Definition simple_ops (e n : N) : opsig := SPoly [].
Definition two : list row := [[]; []].
Definition accepted (x : option (hugr op N)) : vres := match x with Some h => validate no_types simple_ops h | None => VPanic end.

(** Calls, an edge into a nested graph, a nested constant, a conditional and a loop with a value from a dominating block. *)
Definition rich_acts : list (act (O := op) (M := N)) :=
    [AddChild 1%N 0%N (fn 0); AddChild 2%N 1%N (OInput [bit]); AddChild 3%N 1%N (OOutput [bit]); Connect 2%N 0 3%N 0;
     AddChild 4%N 0%N (fn 1); AddChild 5%N 4%N (OInput [bit]); AddChild 6%N 4%N (OOutput [bit]);
     AddChild 7%N 4%N (ODfg ([], [bit])); AddChild 8%N 7%N (OInput []); AddChild 9%N 7%N (OOutput [bit]); AddChild 10%N 7%N (bit_op 0);
     AddChild 11%N 4%N (OConst 0 bit true); AddChild 12%N 7%N (OLoadConstant bit); AddChild 13%N 7%N call_op;
     Connect 5%N 1 7%N 0; Connect 5%N 0 10%N 0; Connect 11%N 0 12%N 0; Connect 10%N 0 13%N 0; Connect 1%N 0 13%N 1; Connect 13%N 0 9%N 0;
     AddChild 14%N 4%N (OTag 1 two); AddChild 15%N 4%N (OConditional two [bit] [bit]);
     AddChild 16%N 15%N (OCase ([bit], [bit])); AddChild 17%N 16%N (OInput [bit]); AddChild 18%N 16%N (OOutput [bit]); Connect 17%N 0 18%N 0;
     AddChild 19%N 15%N (OCase ([bit], [bit])); AddChild 20%N 19%N (OInput [bit]); AddChild 21%N 19%N (OOutput [bit]); Connect 20%N 0 21%N 0;
     Connect 14%N 0 15%N 0; Connect 7%N 0 15%N 1;
     AddChild 22%N 4%N (OCfg ([bit], [bit])); AddChild 23%N 22%N (OBlock [bit] [bit] two); AddChild 24%N 22%N (OExit [bit]);
     AddChild 25%N 22%N (OBlock [bit] [bit] [[]]);
     AddChild 26%N 23%N (OInput [bit]); AddChild 27%N 23%N (OOutput [new_sum two; bit]); AddChild 28%N 23%N (OTag 0 two);
     Connect 28%N 0 27%N 0; Connect 26%N 0 27%N 1;
     AddChild 29%N 25%N (OInput [bit]); AddChild 30%N 25%N (OOutput [new_sum [[]]; bit]); AddChild 31%N 25%N (OTag 0 [[]]); AddChild 32%N 25%N (bit_op 1);
     Connect 31%N 0 30%N 0; Connect 26%N 0 32%N 0; Connect 32%N 0 30%N 1;
     Connect 23%N 0 23%N 0; Connect 23%N 1 25%N 0; Connect 25%N 0 24%N 0; Connect 15%N 0 22%N 0; Connect 22%N 0 6%N 0; SetEntry 4%N].
Definition make (acts : list (act (O := op) (M := N))) : option (hugr op N) := run OModule in_count out_count (new_hugr OModule 0%N) acts.

Example rich_accepted : accepted (make rich_acts) = VOk.
Proof. vm_compute. reflexivity. Qed.
Example rich_wf : wf (graph_of (make rich_acts)).
Proof. apply built_wf. vm_compute. tauto. Qed.
Example rich_valid : valid no_types simple_ops (graph_of (make rich_acts)).
Proof. apply validate_accepts; [exact rich_wf|]. vm_compute. reflexivity. Qed.

(** Each of these breaks one of the conditions. *)
Definition plus (acts : list (act (O := op) (M := N))) : vres := accepted (make (rich_acts ++ acts)).
Example rejected :
  plus [Disconnect 7%N Inc 0] = VErr (MissingOrderEdge (5%N, 0) (10%N, 0) 7%N) /\
  plus [Connect 7%N 1 7%N 0] = VErr (NotADag 4%N) /\
  plus [Connect 11%N 0 10%N 0] = VErr (TooManyConnections 10%N Inc 0) /\
  plus [Disconnect 3%N Inc 0] = VErr (UnconnectedPort 3%N Inc 0) /\
  plus [ReplaceOp 16%N (OCase ([bit], []))] = VErr (ConditionalCaseSignature 16%N) /\
  plus [Disconnect 23%N Out 1; Connect 23%N 1 24%N 0] = VErr (NonDominatedAncestor (26%N, 0) (32%N, 0) 25%N) /\
  plus [Disconnect 32%N Inc 0; Connect 2%N 0 32%N 0] = VErr (NonCFGAncestor (2%N, 0) (32%N, 0)) /\
  plus [ReplaceOp 1%N (fn 1)] = VErr (DuplicateExport 1%N 4%N) /\
  plus [ReplaceOp 28%N (OTag 0 [[]])] = VErr (IncompatiblePorts (28%N, 0) (27%N, 0)) /\
  plus [SetEntry 5%N] = VErr (EntrypointNotContainer 5%N) /\
  plus [ReplaceOp 25%N (OBlock [] [bit] [[]])] = VErr (CFGEdgeSignatureMismatch (23%N, 1) (25%N, 0)).
Proof. vm_compute. repeat split. Qed.

(** ** What validation does not do *)
(** Instead of reporting an error, validation panics: on a conditional with a child that is not a case (the conditional
    is checked before its child is found to be in the wrong place), on a region with a single child, on a [Tag] out of range,
    and on an edge between a constant and a block. *)
Definition wrong_child : option (hugr op N) :=
  make [AddChild 1%N 0%N (fn 0); AddChild 2%N 1%N (OInput [bit]); AddChild 3%N 1%N (OOutput [bit]); Connect 2%N 0 3%N 0;
        AddChild 4%N 1%N (OConditional [[]] [] []); AddChild 5%N 4%N (ODfg ([], []))].
Definition only_child : option (hugr op N) := make [AddChild 1%N 0%N (fn 0); AddChild 2%N 1%N (OInput [bit])].
Definition wrong_tag : option (hugr op N) :=
  make [AddChild 1%N 0%N (fn 0); AddChild 2%N 1%N (OInput [bit]); AddChild 3%N 1%N (OOutput [bit]); Connect 2%N 0 3%N 0;
        AddChild 4%N 1%N (OTag 2 two)].
Definition const_edge : option (hugr op N) := make (rich_acts ++ [AddChild 33%N 22%N (OConst 0 bit true); Connect 33%N 0 23%N 0]).

Theorem validate_no_panic_refuted : exists a b c d : hugr op N,
  (wf a /\ (exists n p, h_parent a n = Some p /\ ~ allowed (h_ops a p) (h_ops a n)) /\ validate no_types simple_ops a = VPanic) /\
  (wf b /\ (exists n, length (h_kids b n) = 1) /\ validate no_types simple_ops b = VPanic) /\
  (wf c /\ (exists n, tag_in_range (h_ops c n) = false) /\ validate no_types simple_ops c = VPanic) /\
  (wf d /\ (forall n p, h_parent d n = Some p -> allowed (h_ops d p) (h_ops d n)) /\ validate no_types simple_ops d = VPanic).
Proof.
  exists (graph_of wrong_child), (graph_of only_child), (graph_of wrong_tag), (graph_of const_edge). split; [|split; [|split]].
  - split; [apply built_wf; vm_compute; tauto|]. split; [|vm_compute; reflexivity]. exists 5%N, 4%N. split; [vm_compute; reflexivity|].
    assert (A : h_ops (graph_of wrong_child) 4%N = OConditional [[]] [] []) by (vm_compute; reflexivity).
    assert (B : h_ops (graph_of wrong_child) 5%N = ODfg ([], [])) by (vm_compute; reflexivity).
    rewrite A, B. clear A B. intros T. inversion T as [| | | | | | | | | | |? ? ? ? R]. inversion R.
  - split; [apply built_wf; vm_compute; tauto|]. split; [|vm_compute; reflexivity]. exists 1%N. vm_compute. reflexivity.
  - split; [apply built_wf; vm_compute; tauto|]. split; [|vm_compute; reflexivity]. exists 4%N. vm_compute. reflexivity.
  - assert (W : wf (graph_of const_edge)) by (apply built_wf; vm_compute; tauto). split; [exact W|]. split; [|vm_compute; reflexivity].
    assert (X : forallb (fun n => match h_parent (graph_of const_edge) n with
        | None => true | Some p => within (f_children (validity_flags (h_ops (graph_of const_edge) p))) (op_tag (h_ops (graph_of const_edge) n)) end)
        (h_nodes (graph_of const_edge)) = true) by (vm_compute; reflexivity).
    revert W X. generalize (graph_of const_edge). intros d W X n p P. rewrite forallb_forall in X.
    destruct (wf_parent_live d W n p P) as (In_ & _). specialize (X n In_). rewrite P in X. now apply children_iff.
Qed.
Print Assumptions validate_no_panic_refuted.

(** The type arguments of a call are not checked against the type variables in scope (contrary to the documentation of
    [validate_subtree]): if the parameter is not used in the signature, an undeclared variable is accepted. *)
Definition phantom : poly := {| p_params := [KType Linear]; p_ins := []; p_outs := [] |}.
Definition phantom_call : option (hugr op N) :=
  make [AddChild 1%N 0%N (OFuncDecl 0 phantom true);
        AddChild 2%N 0%N (OFuncDefn 1 {| p_params := []; p_ins := []; p_outs := [] |} true); AddChild 3%N 2%N (OInput []); AddChild 4%N 2%N (OOutput []);
        AddChild 5%N 2%N (OCall phantom [MType (TVar 7 Linear)] ([], [])); Connect 1%N 0 5%N 0].

Theorem validate_variables_refuted : exists (h : hugr op N) n f args inst a ds, wf h /\ validate no_types simple_ops h = VOk /\
  h_ops h n = OCall f args inst /\ In a args /\ scope h n ds /\ valid_term no_types ds a = false.
Proof.
  exists (graph_of phantom_call), 5%N, phantom, [MType (TVar 7 Linear)], ([], []), (MType (TVar 7 Linear)), [].
  split; [apply built_wf; vm_compute; tauto|]. split; [vm_compute; reflexivity|]. split; [vm_compute; reflexivity|]. split; [now left|].
  split; [|reflexivity]. change (@nil term) with (p_params {| p_params := []; p_ins := []; p_outs := [] |}).
  apply scope_function with (p := 2%N) (name := 1%N) (pub := true); vm_compute; reflexivity.
Qed.
Print Assumptions validate_variables_refuted.

(** A call may be connected to several functions. *)
Definition two_callees : option (hugr op N) :=
  make [AddChild 1%N 0%N (fn 0); AddChild 2%N 1%N (OInput [bit]); AddChild 3%N 1%N (OOutput [bit]); AddChild 4%N 1%N call_op;
        Connect 2%N 0 4%N 0; Connect 4%N 0 3%N 0; AddChild 5%N 0%N (OFuncDecl 1 {| p_params := []; p_ins := [bit]; p_outs := [bit] |} true);
        Connect 1%N 0 4%N 1; Connect 5%N 0 4%N 1].

Theorem validate_one_callee_refuted : exists (h : hugr op N) n i f, wf h /\ validate no_types simple_ops h = VOk /\
  kind_at h n Inc i (EFunction f) /\ length (in_links h (n, i)) = 2.
Proof.
  exists (graph_of two_callees), 4%N, 1, {| p_params := []; p_ins := [bit]; p_outs := [bit] |}.
  split; [apply built_wf; vm_compute; tauto|]. split; [vm_compute; reflexivity|]. split; [|vm_compute; reflexivity].
  assert (A : h_ops (graph_of two_callees) 4%N = call_op) by (vm_compute; reflexivity).
  unfold kind_at. rewrite A. exists [EValue bit; EFunction {| p_params := []; p_ins := [bit]; p_outs := [bit] |}; EOrder]. split; [|reflexivity].
  exact (ports_call_in _ _ [bit] [bit]).
Qed.
Print Assumptions validate_one_callee_refuted.
