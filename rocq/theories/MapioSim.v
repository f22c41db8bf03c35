(** A function whose signature is changed computes the same, up to the choice of inputs and outputs. *)
From Coq Require Import List Bool NArith Arith Lia Permutation.
From Verif Require Import PValModel TypesModel GraphModel GraphSpec PValSpec GraphProofs GraphRemove GraphBfs OpModel OpSpec DeadModel InlineModel ReplaceModel ValidModel ValidSpec FlowModel FlowSpec EmitModel EmitSpec EmitGraph MirrorProofs CullProofs RenameProofs IncallProps MapioModel MapioSpec MapioProofs MapioMain MapioProps.
From Verif Require InlineProofs.
Import ListNotations.
Local Notation wf := GraphSpec.wf.

(** No run that begins like this calls [f]. *)
Definition never_called {W V E F M} (sem : @semantics W E F) (ctx : @context V E F) (h : hugr op M) (st : @stack W) (f : N) : Prop :=
  forall fr r st' n ins, all_steps sem ctx h st ((fr, r) :: st') -> waiting h fr n -> ~ calls h fr n f ins.

Section Sim.
  Context {W V E F M : Type}.
  Notation conc := (conc W N unit).
  Notation hugr := (hugr op M).
  Notation frame := (@frame W).
  Variable tys : N -> N -> option typedef.
  Variable defs : N -> N -> opsig.
  Variable sem : @semantics W E F.
  Variable ctx : @context V E F.
  Variables h h' : hugr.
  Variables (f i o nm : N) (sg : poly) (pub : bool).
  Variables ins outs : list nat.
  Hypothesis Wf : wf h.
  Hypothesis Va : valid tys defs h.
  Hypothesis Of : h_ops h f = OFuncDefn nm sg pub.
  Hypothesis Io : get_io h f = Some (i, o).
  Hypothesis G : good_map h i (p_ins sg) (p_outs sg) ins outs.
  Hypothesis X : io_mapped h f i o nm sg pub ins outs h'.

  Definition inside (n : N) : Prop := n <> f /\ n <> i /\ n <> o.

  Lemma ops_in n : inside n -> h_ops h' n = h_ops h n.
  Proof. intros (A & B & C). apply (im_other _ _ _ _ _ _ _ _ _ _ X n A B C). Qed.
  Lemma ops_i : h_ops h i = OInput (p_ins sg).
  Proof. apply (fn_ops tys defs h f i o nm sg pub Wf Va Of Io). Qed.
  Lemma ops_o : h_ops h o = OOutput (p_outs sg).
  Proof. apply (fn_ops tys defs h f i o nm sg pub Wf Va Of Io). Qed.
  Lemma io_same n : get_io h' n = get_io h n.
  Proof.
    unfold get_io. rewrite (im_kids _ _ _ _ _ _ _ _ _ _ X). destruct (im_ops _ _ _ _ _ _ _ _ _ _ X) as (r & s & _ & _ & E1 & E2 & E3).
    destruct (N.eq_dec n f) as [->|A]; [rewrite E1, Of; reflexivity|]. destruct (N.eq_dec n i) as [->|B]; [rewrite E2, ops_i; reflexivity|]. destruct (N.eq_dec n o) as [->|C]; [rewrite E3, ops_o; reflexivity|].
    rewrite (ops_in n) by (split; [|split]; assumption). reflexivity.
  Qed.
  Lemma parent_same n : get_parent h' n = get_parent h n.
  Proof. unfold get_parent, contains. rewrite (im_nodes _ _ _ _ _ _ _ _ _ _ X), (im_root _ _ _ _ _ _ _ _ _ _ X), (im_parent _ _ _ _ _ _ _ _ _ _ X). reflexivity. Qed.
  Lemma desc_same p : descendants h' p = descendants h p.
  Proof. unfold descendants. now rewrite (im_nodes _ _ _ _ _ _ _ _ _ _ X), (im_kids _ _ _ _ _ _ _ _ _ _ X). Qed.

  (** ** Sources *)
  Lemma outs_in (g : hugr) n k : linked_outputs g n k = map fst (in_links g (n, k)).
  Proof. reflexivity. Qed.
  Lemma in_moved n k : n <> o -> Permutation (in_links h' (n, k)) (map (fun l : link => (moved i ins (fst l), snd l)) (in_links h (n, k))).
  Proof.
    intros Hn. assert (P : Permutation (in_links h' (n, k)) (filter (fun l => ep_eqb (snd l) (n, k)) (expected_links h i o ins outs))).
    { unfold in_links. apply InlineProofs.filter_perm, (im_links _ _ _ _ _ _ _ _ _ _ X). }
    etransitivity; [exact P|]. apply Permutation_refl'. unfold expected_links. etransitivity; [apply (@filter_app link)|].
    replace (filter _ (flat_map _ _)) with (@nil link).
    - rewrite app_nil_r. unfold in_links. clear P. induction (h_links h) as [|l L IH]; [reflexivity|]. cbn [filter map].
      destruct (N.eqb_spec (fst (snd l)) o) as [E0|E0]; cbn [negb].
      + destruct (ep_eqb (snd l) (n, k)) eqn:E1; [apply ep_eqb_iff in E1; rewrite E1 in E0; contradiction|exact IH].
      + cbn [map filter snd]. destruct (ep_eqb (snd l) (n, k)); [cbn; now rewrite IH|exact IH].
    - symmetry. apply filter_none. intros l Hl. apply in_flat_map in Hl as (e & _ & Hl). apply in_map_iff in Hl as (l0 & <- & _). cbn [snd].
      destruct (ep_eqb (o, fst e) (n, k)) eqn:E1; [|reflexivity]. apply ep_eqb_iff in E1. congruence.
  Qed.
  Lemma at_output (S0 : nat -> list link) (g : link -> endpoint) q : forall l a, nth_error l q <> None ->
    filter (fun x : link => ep_eqb (snd x) (o, a + q)) (flat_map (fun e : nat * nat => map (fun x : link => (g x, (o, fst e))) (S0 (snd e))) (combine (seq a (length l)) l)) =
    match nth_error l q with Some k => map (fun x : link => (g x, (o, a + q))) (S0 k) | None => [] end.
  Proof.
    revert q. assert (None_ : forall p q (L : list link), p <> q -> filter (fun x : link => ep_eqb (snd x) (o, q)) (map (fun x : link => (g x, (o, p))) L) = []).
    { intros p q L D. apply filter_none. intros x Hx. apply in_map_iff in Hx as (y & <- & _). cbn [snd]. destruct (ep_eqb (o, p) (o, q)) eqn:E1; [apply ep_eqb_iff in E1; congruence|reflexivity]. }
    assert (All_ : forall p (L : list link), filter (fun x : link => ep_eqb (snd x) (o, p)) (map (fun x : link => (g x, (o, p))) L) = map (fun x : link => (g x, (o, p))) L).
    { intros p L. apply filter_all. intros x Hx. apply in_map_iff in Hx as (y & <- & _). now apply ep_eqb_iff. }
    intros q l. revert q. induction l as [|k l IH]; intros q a Hq; [destruct q; cbn in Hq; congruence|]. cbn [length seq combine flat_map fst snd]. rewrite filter_app. destruct q as [|q].
    - rewrite Nat.add_0_r, All_. cbn [nth_error]. rewrite filter_none; [apply app_nil_r|]. intros x Hx. apply in_flat_map in Hx as ([p k'] & He & Hx). apply in_map_iff in Hx as (y & <- & _). cbn [fst snd].
      apply in_combine_l, in_seq in He. destruct (ep_eqb (o, p) (o, a)) eqn:E1; [apply ep_eqb_iff in E1; injection E1 as ->; lia|reflexivity].
    - rewrite None_ by lia. cbn [app nth_error] in *. replace (a + S q) with (S a + q) by lia. apply IH, Hq.
  Qed.
  Lemma in_output q k : nth_error outs q = Some k -> Permutation (in_links h' (o, q)) (map (fun l : link => (moved i ins (fst l), (o, q))) (in_links h (o, k))).
  Proof.
    intros Hq. assert (P : Permutation (in_links h' (o, q)) (filter (fun l => ep_eqb (snd l) (o, q)) (expected_links h i o ins outs))).
    { unfold in_links. apply InlineProofs.filter_perm, (im_links _ _ _ _ _ _ _ _ _ _ X). }
    etransitivity; [exact P|]. apply Permutation_refl'. unfold expected_links. etransitivity; [apply (@filter_app link)|].
    replace (filter _ (map _ _)) with (@nil link).
    - pose proof (at_output (fun k => in_links h (o, k)) (fun l => moved i ins (fst l)) q outs 0) as A. cbn [app]. rewrite Nat.add_0_l in A. rewrite A; [|congruence]. now rewrite Hq.
    - symmetry. apply filter_none. intros l Hl. apply in_map_iff in Hl as (l0 & <- & Hl). apply filter_In in Hl as [_ Hl]. apply negb_true_iff, N.eqb_neq in Hl. cbn [snd].
      destruct (ep_eqb (snd l0) (o, q)) eqn:E1; [|reflexivity]. apply ep_eqb_iff in E1. rewrite E1 in Hl. contradiction.
  Qed.
  Lemma single_iff (g : hugr) n k e : single_linked_output g n k = Some e <-> exists l, in_links g (n, k) = [l] /\ fst l = e.
  Proof.
    unfold single_linked_output. rewrite outs_in. destruct (in_links g (n, k)) as [|l [|l2 L]]; cbn; split.
    - discriminate.
    - intros (? & ? & _). discriminate.
    - intros [= <-]. eauto.
    - intros (? & [= <-] & <-). reflexivity.
    - discriminate.
    - intros (? & ? & _). discriminate.
  Qed.
  Lemma source_moved n k e : n <> o -> single_linked_output h n k = Some e -> single_linked_output h' n k = Some (moved i ins e).
  Proof.
    intros Hn H. apply single_iff in H as (l & H & <-). pose proof (in_moved n k Hn) as P. rewrite H in P. apply Permutation_sym, Permutation_length_1_inv in P. apply single_iff. eexists. split; [exact P|reflexivity].
  Qed.
  Lemma source_output q k e : nth_error outs q = Some k -> single_linked_output h o k = Some e -> single_linked_output h' o q = Some (moved i ins e).
  Proof.
    intros Hq H. apply single_iff in H as (l & H & <-). pose proof (in_output q k Hq) as P. rewrite H in P. apply Permutation_sym, Permutation_length_1_inv in P. apply single_iff. eexists. split; [exact P|reflexivity].
  Qed.
  Lemma single_link n k e : single_linked_output h n k = Some e -> In (e, (n, k)) (h_links h).
  Proof. intros H. apply single_iff in H as (l & H & <-). assert (A : In l (in_links h (n, k))) by (rewrite H; now left). apply filter_In in A as [A B]. apply ep_eqb_iff in B. destruct l; cbn in *. now subst. Qed.

  (** ** The tree *)
  Lemma fn_parent p : h_parent h f = Some p -> h_ops h p = OModule.
  Proof. intros Hp. pose proof (v_tree _ _ _ Va f p Hp) as T. rewrite Of in T. inversion T; subst; auto. match goal with H : in_dataflow _ |- _ => inversion H end. Qed.
  Lemma module_top p : h_ops h p = OModule -> h_parent h p = None.
  Proof. intros Hp. destruct (h_parent h p) as [q|] eqn:E0; [|reflexivity]. pose proof (v_tree _ _ _ Va p q E0) as T. rewrite Hp in T. inversion T; subst. match goal with H : in_dataflow _ |- _ => inversion H end. Qed.
  Lemma kid_inside n c : n <> f -> h_ops h n <> OModule -> h_parent h c = Some n -> inside c.
  Proof.
    intros Hn Ho Hc. destruct (fn_parents h f i o Wf Io) as [A B]. split; [|split]; intros ->; [|congruence|congruence]. apply Ho, fn_parent, Hc.
  Qed.
  Lemma io_parents n a b : get_io h n = Some (a, b) -> h_parent h a = Some n /\ h_parent h b = Some n /\ flow_parent (h_ops h n) = true.
  Proof.
    unfold get_io. destruct (flow_parent (h_ops h n)) eqn:E0; [|discriminate]. destruct (h_kids h n) as [|x [|y l]] eqn:K; try discriminate. intros [= -> ->].
    split; [|split; [|reflexivity]]; apply (wf_kids _ Wf); rewrite K; cbn; auto.
  Qed.
  Lemma io_inside n a b : n <> f -> get_io h n = Some (a, b) -> inside a /\ inside b.
  Proof.
    intros Hn H. destruct (io_parents _ _ _ H) as (A & B & C). assert (D : h_ops h n <> OModule) by (intros E0; rewrite E0 in C; discriminate). split; eapply kid_inside; eassumption.
  Qed.
  Lemma not_below p a b : p <> f -> get_io h p = Some (a, b) -> memN i (descendants h p) = false.
  Proof.
    intros Hp H. destruct (io_parents _ _ _ H) as (A & B & C). destruct (memN i (descendants h p)) eqn:E0; [|reflexivity]. exfalso.
    apply (desc_iff h Wf) in E0; [|exact (proj1 (io_live h p a b Wf H))]. destruct (fn_parents h f i o Wf Io) as [Pi _].
    assert (N1 : p <> i) by (intros ->; rewrite ops_i in C; discriminate). assert (Next : forall x q, h_parent h x = Some q -> x <> p -> up (h_parent h) x p -> up (h_parent h) q p) by (intros x q Hx Dx U; inversion U; subst; congruence).
    assert (Top : forall q, up (h_parent h) q p -> h_parent h q = None -> q = p) by (intros q U; inversion U; subst; congruence).
    pose proof (Next i f Pi (not_eq_sym N1) E0) as Up. destruct (h_parent h f) as [q|] eqn:Hq; [|apply Hp; symmetry; exact (Top f Up Hq)]. pose proof (Next f q Hq (not_eq_sym Hp) Up) as Uq.
    pose proof (fn_parent q Hq) as Eq. rewrite <- (Top q Uq (module_top q Eq)), Eq in C. discriminate.
  Qed.

  (** ** Frames *)
  Variables A A' : list conc.
  Hypothesis HA : Forall2 (fun k c => nth_error A k = Some c) ins A'.

  Lemma args_at : forall l B k c, Forall2 (fun k c => nth_error A k = Some c) l B -> In k l -> nth_error A k = Some c -> nth_error B (place k l) = Some c.
  Proof.
    intros l B k c H. induction H as [|x y l B Hx H IH]; intros Hi Hc; [destruct Hi|]. cbn. destruct (Nat.eqb_spec x k) as [->|D]; [cbn; congruence|]. destruct Hi as [|Hi]; [contradiction|]. cbn. auto.
  Qed.

  Record rel (fr fr' : frame) : Prop := {
    rl_start : start fr' = start fr;
    rl_pc : forall n, pc fr' n = pc fr n;
    rl_env : forall n, n <> i -> env fr' n = env fr n;
    rl_blocks : forall n b, pc fr n = Some b -> inside b;
    rl_fn : (start fr = f /\ env fr i = Some A /\ env fr' i = Some A') \/ (start fr <> f /\ args fr' = args fr /\ env fr i = None /\ env fr' i = None) }.

  Lemma arrives_rel (fr fr' : frame) n k n' k' c : rel fr fr' -> (forall e, single_linked_output h n k = Some e -> single_linked_output h' n' k' = Some (moved i ins e)) ->
    arrives h fr n k c -> arrives h' fr' n' k' c.
  Proof.
    intros R Hs (m & p & row & H1 & H2 & H3). pose proof (Hs _ H1) as H1'. unfold moved in H1'. cbn [fst snd] in H1'. destruct (N.eqb_spec m i) as [->|D].
    - destruct (rl_fn _ _ R) as [(_ & E1 & E2)|(_ & _ & E1 & _)]; [|congruence]. exists i, (place p ins), A'. split; [exact H1'|]. split; [exact E2|].
      apply args_at; [exact HA|eapply (gm_used _ _ _ _ _ _ G), single_link; exact H1|congruence].
    - exists m, p, row. rewrite (rl_env _ _ R m D). auto.
  Qed.
  Lemma inputs_rel (fr fr' : frame) n cs : rel fr fr' -> inside n -> inputs h fr n cs -> inputs h' fr' n cs.
  Proof.
    intros R Kn H. unfold inputs in *. rewrite (rl_start _ _ R), (ops_in n Kn). destruct (N.eqb n (start fr) && is_some (dataflow_signature (h_ops h n))) eqn:E0.
    - apply andb_true_iff in E0 as [E0 _]. apply N.eqb_eq in E0. destruct (rl_fn _ _ R) as [(E1 & _)|(_ & E1 & _)]; [destruct Kn; congruence|congruence].
    - destruct H as [H1 H2]. split; [unfold FlowModel.in_count in *; rewrite (ops_in n Kn); exact H1|]. intros k c Hc. eapply arrives_rel; [exact R| |apply H2, Hc].
      intros e. apply source_moved, Kn.
  Qed.
  Lemma waiting_rel (fr fr' : frame) n : rel fr fr' -> inside n -> waiting h fr n -> waiting h' fr' n.
  Proof.
    intros R Kn (H1 & H2 & H3). split; [rewrite (im_nodes _ _ _ _ _ _ _ _ _ _ X); exact H1|]. rewrite (rl_start _ _ R). rewrite (rl_env _ _ R n) by apply Kn. split; [|exact H3].
    destruct H2 as [(p & a & b & row & Q1 & Q2 & Q3)|H2]; [left|right; exact H2]. destruct (N.eq_dec a i) as [->|D].
    - destruct (rl_fn _ _ R) as [(_ & E1 & E2)|(_ & _ & E1 & _)]; [|congruence]. exists p, i, b, A'. rewrite parent_same, io_same. auto.
    - exists p, a, b, row. rewrite parent_same, io_same, (rl_env _ _ R a D). auto.
  Qed.

  Notation keep := (fun x : N => x).
  Lemma rel_put (fr fr' : frame) n cs : rel fr fr' -> inside n -> rel (put fr n cs) (put fr' n cs).
  Proof.
    intros R Kn. constructor; cbn; try apply R.
    - intros x Hx. unfold upd. destruct (N.eqb x n); [reflexivity|apply (rl_env _ _ R), Hx].
    - unfold upd. rewrite (proj2 (N.eqb_neq i n)) by (intros E0; exact (proj1 (proj2 Kn) (eq_sym E0))). apply R.
  Qed.
  Lemma rel_apply (fr fr' : frame) n a : rel fr fr' -> inside n -> inside (touched a) -> shape h n a -> rel (apply h a fr) (apply h' (rename keep a) fr').
  Proof.
    intros R Kn Ka Hs. destruct a as [m cs|p j cs|c p j cs|m cs]; cbn in Ka, Hs; cbn [rename apply].
    - destruct Hs as [-> _]. apply rel_put; assumption.
    - destruct Hs as ((b & Hio) & _). destruct (io_inside p j b (proj1 Ka) Hio) as [Kj _]. pose proof (not_below p j b (proj1 Ka) Hio) as Nb. constructor; cbn [start args env pc enter].
      + apply R.
      + intros x. rewrite desc_same, (rl_pc _ _ R x). reflexivity.
      + intros x Hx. rewrite desc_same, (rl_env _ _ R x Hx). reflexivity.
      + intros x y. destruct (memN x (descendants h p)); [discriminate|apply (rl_blocks _ _ R)].
      + rewrite desc_same, Nb. rewrite (proj2 (N.eqb_neq i j)) by (intros E0; exact (proj1 (proj2 Kj) (eq_sym E0))). apply R.
    - destruct Hs as (-> & (b & Hio) & _). destruct (io_inside p j b (proj1 Ka) Hio) as [Kj _]. pose proof (not_below p j b (proj1 Ka) Hio) as Nb. constructor; cbn [start args env pc enter move].
      + apply R.
      + intros x. unfold upd. rewrite desc_same, (rl_pc _ _ R x). reflexivity.
      + intros x Hx. rewrite desc_same, (rl_env _ _ R x Hx). reflexivity.
      + intros x y. unfold upd. destruct (N.eqb x n); [intros [= <-]; exact Ka|]. destruct (memN x (descendants h p)); [discriminate|apply (rl_blocks _ _ R)].
      + rewrite desc_same, Nb. rewrite (proj2 (N.eqb_neq i j)) by (intros E0; exact (proj1 (proj2 Kj) (eq_sym E0))). apply R.
    - destruct Hs as [-> _]. constructor; cbn [start args env pc put move]; try apply R.
      + intros x. unfold upd. rewrite (rl_pc _ _ R x). reflexivity.
      + intros x Hx. unfold upd. destruct (N.eqb x n); [reflexivity|apply (rl_env _ _ R), Hx].
      + intros x y. unfold upd. destruct (N.eqb x n); [discriminate|apply (rl_blocks _ _ R)].
      + unfold upd. rewrite (proj2 (N.eqb_neq i n)) by (intros E0; exact (proj1 (proj2 Kn) (eq_sym E0))). apply R.
  Qed.

  Lemma op_inside n : match h_ops h n with OInput _ | OOutput _ | OFuncDefn _ _ _ => False | _ => True end -> inside n.
  Proof. intros H. split; [|split]; intros ->; rewrite ?Of, ?ops_i, ?ops_o in H; exact H. Qed.

  Lemma kept_renamed : renamed sem ctx h h' inside keep.
  Proof.
    assert (Kid : forall n c, inside n -> h_ops h n <> OModule -> In c (h_kids h n) -> inside c).
    { intros n c Kn Ho Hc. apply (kid_inside n c); [apply Kn|exact Ho|]. apply (wf_kids _ Wf), Hc. }
    constructor.
    - intros n Kn. apply ops_in, Kn.
    - intros n a b Kn H. rewrite io_same. split; [exact H|]. apply (io_inside n a b (proj1 Kn) H).
    - intros n rows oi ou k c Kn Ho Hc _. rewrite (im_kids _ _ _ _ _ _ _ _ _ _ X). split; [exact Hc|]. apply (Kid n); [exact Kn|congruence|eapply nth_error_In; exact Hc].
    - intros n g e Kn Ho Hc. rewrite (im_kids _ _ _ _ _ _ _ _ _ _ X). split; [exact Hc|]. apply (Kid n); [exact Kn|congruence|apply hd_in, Hc].
    - intros n g e Kn Ho Hc. rewrite (im_kids _ _ _ _ _ _ _ _ _ _ X). split; [exact Hc|]. apply (Kid n); [exact Kn|congruence|eapply nth_error_In; exact Hc].
    - intros n g t Kn Ho Hc _. rewrite (im_kids _ _ _ _ _ _ _ _ _ _ X). split; [exact Hc|]. apply (Kid n); [exact Kn|congruence|exact Hc].
    - intros b k t j Kb Kt _ H. apply (proj1 (linked_in_iff h b k (t, j))) in H. apply (proj2 (linked_in_iff h' b k (t, j))). apply (Permutation_in _ (Permutation_sym (im_links _ _ _ _ _ _ _ _ _ _ X))).
      apply in_or_app. left. apply in_map_iff. exists ((b, k), (t, j)). unfold moved. cbn [fst snd]. rewrite (proj2 (N.eqb_neq b i)) by apply Kb. split; [reflexivity|].
      apply filter_In. split; [exact H|]. cbn. apply negb_true_iff, N.eqb_neq, Kt.
    - intros n is os Kn H. pose proof (ops_in n Kn) as O. destruct H.
      + eapply l_make; [rewrite O|]; eassumption.
      + eapply l_unpack; [rewrite O| |]; eassumption.
      + eapply l_ext; [rewrite O| |]; eassumption.
      + eapply l_tag. rewrite O. eassumption.
      + assert (Ke : inside (fst e)) by (apply op_inside; rewrite H1; exact Logic.I). pose proof (source_moved n 0 e (proj2 (proj2 Kn)) H0) as Hs. unfold moved in Hs. rewrite (proj2 (N.eqb_neq (fst e) i)) in Hs by apply Ke.
        eapply l_const; [rewrite O; eassumption|exact Hs|]. rewrite (ops_in _ Ke). eassumption.
      + pose proof (load_source tys defs h n f0 a i0 e Va H H0) as Hf. pose proof (source_moved n 0 e (proj2 (proj2 Kn)) H0) as Hs. unfold moved in Hs.
        rewrite (proj2 (N.eqb_neq (fst e) i)) in Hs by (intros E0; rewrite E0, ops_i in Hf; exact Hf). eapply l_func; [rewrite O; eassumption|exact Hs].
  Qed.

  Lemma calls_rel (fr fr' : frame) n c cs : rel fr fr' -> calls h fr n c cs -> inside n /\ calls h' fr' n c cs.
  Proof.
    intros R H. destruct H as [c0 g a cs callee Ho Hin Hs|g cs callee Ho Hin].
    - assert (Kn : inside n) by (apply op_inside; rewrite Ho; exact Logic.I). split; [exact Kn|]. eapply c_direct; [rewrite (ops_in n Kn); exact Ho|eapply inputs_rel; eassumption|].
      unfold DeadModel.static_source in *. rewrite (ops_in n Kn). destruct (static_port (h_ops h n) Inc) as [k|] eqn:Ep; [|discriminate]. rewrite outs_in in *. rewrite (im_kept _ _ _ _ _ _ _ _ _ _ X n k); [exact Hs|apply Kn|].
      intros [[s p] d] Hl. apply filter_In in Hl as [Hl Hd]. apply ep_eqb_iff in Hd. cbn [snd] in Hd. subst d. cbn [fst]. destruct (v_links _ _ _ Va s p n k Hl) as (kd & Hs1 & (ks & P & Hk) & _).
      rewrite Ho in P, Ep. cbn in Ep. injection Ep as <-. destruct c0 as [c1 c2]. inversion P; subst. unfold value_port_count in Hk. cbn in Hk. rewrite nth_error_app2 in Hk by (unfold values; rewrite map_length; lia).
      unfold values in Hk. rewrite map_length, Nat.sub_diag in Hk. cbn in Hk. injection Hk as <-. destruct (function_out _ _ _ Hs1 (ex_intro _ _ eq_refl)) as [Hf _]. intros ->. rewrite ops_i in Hf. exact Hf.
    - assert (Kn : inside n) by (apply op_inside; rewrite Ho; exact Logic.I). split; [exact Kn|]. eapply c_indirect; [rewrite (ops_in n Kn); exact Ho|eapply inputs_rel; eassumption].
  Qed.
  Lemma fits_rel n (cs : list conc) : inside n -> fits h n cs -> fits h' n cs.
  Proof. unfold fits, FlowModel.out_count. intros Kn. now rewrite (ops_in n Kn). Qed.

  (** ** Stacks *)
  Definition related (a b : frame * option N) : Prop := rel (fst a) (fst b) /\ snd b = snd a /\ match snd a with Some n => inside n /\ start (fst a) <> f | None => start (fst a) = f end.

  Lemma local_rel (fr fr2 fr' : frame) : rel fr fr' -> local_step sem ctx h fr fr2 -> exists fr2', local_step sem ctx h' fr' fr2' /\ rel fr2 fr2' /\ start fr2 = start fr.
  Proof.
    intros R H. destruct (local_rename sem ctx h h' inside keep Wf kept_renamed fr fr2 H) as (n & a & Hw & Ha & Hsh & -> & Ht & Hstep).
    assert (Kn : inside n) by (apply op_inside; unfold steps_alone in Ha; destruct (h_ops h n); auto).
    exists (apply h' (rename keep a) fr'). split; [|split; [apply rel_apply with (n := n); auto|destruct a; reflexivity]].
    apply Hstep; auto.
    - intros m Km. apply (rl_env _ _ R), Km.
    - rewrite (rl_pc _ _ R n). destruct (pc fr n); reflexivity.
    - apply (rl_blocks _ _ R).
    - apply (waiting_rel fr); assumption.
    - intros m cs Km. apply inputs_rel; assumption.
  Qed.

  Hypothesis Never : never_called sem ctx h [(new_frame f i A, None)] f.

  Lemma initial : rel (new_frame f i A) (new_frame f i A').
  Proof.
    constructor; cbn; auto.
    - intros n Hn. rewrite (proj2 (N.eqb_neq n i)) by assumption. reflexivity.
    - discriminate.
    - left. rewrite N.eqb_refl. auto.
  Qed.
  Lemma all_rel st : all_steps sem ctx h [(new_frame f i A, None)] st ->
    exists st', all_steps sem ctx h' [(new_frame f i A', None)] st' /\ Forall2 related st st'.
  Proof.
    intros H. remember [(new_frame f i A, None)] as st0 eqn:E0 in H. induction H as [st0|a b c Hab IH Hbc].
    - subst st0. eexists. split; [apply all_none|]. constructor; [split; [exact initial|split; [reflexivity|reflexivity]]|constructor].
    - specialize (IH E0). subst a. destruct IH as (b' & Hb' & Rb). destruct Hbc as [Hs|Hs].
      + revert Rb Hab. destruct Hs as [fr fr2 r st Hl|fr r st n g nm' sg' pub' j k cs Hw Hc Hg Hio Hf|fr n fr2 r st j k os Hio Hin Hf]; intros Rb Hab.
        * inversion Rb as [|x y l l' (R & Er & Hr) Rl]; subst. destruct y as [fr' r']. cbn in R, Er, Hr. subst r'. destruct (local_rel _ _ _ R Hl) as (fr2' & Hl' & R2 & Es).
          eexists. split; [eapply all_more; [exact Hb'|left; apply s_local; exact Hl']|]. constructor; [|exact Rl]. split; [exact R2|]. split; [reflexivity|]. cbn. rewrite Es. exact Hr.
        * inversion Rb as [|x y l l' (R & Er & Hr) Rl]; subst. destruct y as [fr' r']. cbn in R, Er, Hr. subst r'. destruct (calls_rel _ _ _ _ _ R Hc) as [Kn Hc'].
          assert (Dg : g <> f) by (intros ->; exact (Never _ _ _ _ _ Hab Hw Hc)). assert (Kg : inside g).
          { split; [exact Dg|]. split; intros ->; [rewrite ops_i in Hg|rewrite ops_o in Hg]; discriminate. }
          destruct (io_inside g j k Dg Hio) as [Kj _]. exists ((new_frame g j cs, Some n) :: (fr', r) :: l'). split.
          -- eapply all_more; [exact Hb'|]. left. eapply s_call; [eapply waiting_rel; eassumption|exact Hc'|rewrite (ops_in g Kg); exact Hg|rewrite io_same; exact Hio|apply fits_rel; assumption].
          -- constructor; [|constructor; [split; [exact R|split; [reflexivity|exact Hr]]|exact Rl]]. split; [|split; [reflexivity|cbn; auto]].
             constructor; cbn; auto; [discriminate|]. right. rewrite (proj2 (N.eqb_neq i j)) by (intros E1; exact (proj1 (proj2 Kj) (eq_sym E1))). auto.
        * inversion Rb as [|x y l l' (R & Er & Hr) Rl]; subst. destruct y as [fr' r']. cbn in R, Er, Hr. subst r'. inversion Rl as [|x2 y2 l2 l2' (R2 & Er2 & Hr2) Rl2]; subst. destruct y2 as [fr2' r2']. cbn in R2, Er2, Hr2. subst r2'.
          destruct Hr as [Kn Ds]. destruct (io_inside _ _ _ Ds Hio) as [_ Kk].
          exists ((put fr2' n os, r) :: l2'). split.
          -- eapply all_more; [exact Hb'|]. left. eapply s_return; [rewrite (rl_start _ _ R), io_same; exact Hio|eapply inputs_rel; eassumption|apply fits_rel; assumption].
          -- constructor; [|exact Rl2]. split; [|split; [reflexivity|exact Hr2]]. apply rel_put; assumption.
      + revert Rb Hab. destruct Hs as [fr r st n g nm' sg' pub' cs os Hw Hc Hg He Hf]. intros Rb Hab. inversion Rb as [|x y l l' (R & Er & Hr) Rl]; subst. destruct y as [fr' r']. cbn in R, Er, Hr. subst r'. destruct (calls_rel _ _ _ _ _ R Hc) as [Kn Hc'].
        assert (Kg : inside g) by (apply op_inside; rewrite Hg; exact Logic.I).
        exists ((put fr' n os, r) :: l'). split.
        * eapply all_more; [exact Hb'|]. right. eapply s_extern; [eapply waiting_rel; eassumption|exact Hc'|rewrite (ops_in g Kg); exact Hg|exact He|apply fits_rel; assumption].
        * constructor; [|exact Rl]. split; [|split; [reflexivity|exact Hr]]. apply rel_put; assumption.
  Qed.

  Lemma picked_in (Rs : list conc) : forall l Rs' q c, Forall2 (fun k c => nth_error Rs k = Some c) l Rs' -> nth_error Rs' q = Some c -> exists k, nth_error l q = Some k /\ nth_error Rs k = Some c.
  Proof.
    induction l as [|x l IH]; intros Rs' q c H Hc; inversion H; subst; [destruct q; discriminate|]. destruct q as [|q]; cbn in *; [injection Hc as <-; eauto|]. eapply IH; eassumption.
  Qed.
  Lemma same_len {S0 T0} (P : S0 -> T0 -> Prop) l l' : Forall2 P l l' -> length l' = length l.
  Proof. induction 1; cbn; congruence. Qed.
  Lemma mapped_computes (Rs Rs' : list conc) : Forall2 (fun k c => nth_error Rs k = Some c) outs Rs' -> computes sem ctx h f A Rs -> computes sem ctx h' f A' Rs'.
  Proof.
    intros HR (i0 & o0 & fr & Hio & Hfit & Hst & Hin). rewrite Io in Hio. injection Hio as <- <-. destruct (all_rel _ Hst) as (st' & Hst' & Rl).
    inversion Rl as [|x y l l' (R & Er & Hr) Rl']; subst. inversion Rl'; subst. destruct y as [fr' r']. cbn in R, Er, Hr. subst r'.
    destruct (im_ops _ _ _ _ _ _ _ _ _ _ X) as (ri & ro & Pi & Po & E1 & E2 & E3). destruct (fn_distinct tys defs h f i o nm sg pub Wf Va Of Io) as (D1 & D2 & D3).
    exists i, o, fr'. split; [rewrite io_same; exact Io|]. split; [|split; [exact Hst'|]].
    - unfold fits, FlowModel.out_count in *. rewrite E2. cbn. rewrite (same_len _ _ _ HA). apply picked_length in Pi. congruence.
    - unfold inputs in *. rewrite (rl_start _ _ R), Hr in *. assert (Dof : N.eqb o f = false) by (apply N.eqb_neq; congruence). rewrite Dof in *. cbn [andb] in *. destruct Hin as [H1 H2]. split.
      + unfold FlowModel.in_count in *. rewrite E3. cbn. rewrite (same_len _ _ _ HR). apply picked_length in Po. congruence.
      + intros q c Hc. destruct (picked_in _ _ _ _ _ HR Hc) as (k & Hq & Hk). eapply arrives_rel; [exact R| |apply H2, Hk]. intros e. apply source_output, Hq.
  Qed.
End Sim.
