(** Breaking wires that carry known values does not change what functions compute. *)
From Coq Require Import List Bool NArith Arith Lia.
From Verif Require Import PValModel TagModel TypesModel GraphModel GraphSpec PValSpec GraphProofs GraphRemove Graphs OpModel OpSpec DeadModel DeadSpec InlineModel ReplaceModel FlowModel FlowSpec EmitGraph NormModel FoldModel FoldSpec FoldGraph MirrorProofs CullProofs.
Import ListNotations.
Local Notation wf := GraphSpec.wf.

Section FoldSim.
  Context {W V E F M : Type}.
  Notation conc := (conc W N unit).
  Notation hugr := (hugr op M).
  Notation frame := (@frame W).
  Notation stack := (@stack W).
  Notation cut := (@cut E F).
  Variable sem : @semantics W E F.
  Variable ctx : @context V E F.
  Variable type_of : value E F -> TypesModel.ty.
  Variable store : value E F -> N.
  Variable h h1 : hugr.
  Variable L : list cut.
  Hypothesis Wh : wf h.
  Hypothesis T : tidy h.
  Hypothesis B : broken type_of store h L h1.
  Hypothesis Hflow : forall k p, In k L -> h_parent h (k_node k) = Some p -> flow_parent (h_ops h p) = true.
  Hypothesis Hctl : forall k b i, In k L -> is_block (h_ops h b) = true -> ~ In ((b, i), (k_node k, k_port k)) (h_links h).
  Hypothesis Hstat : forall n i, static_port (h_ops h n) Inc = Some i -> ~ cut_at L n i.
  Hypothesis Hst : forall k, In k L -> content ctx (store (k_value k)) = k_value k.

  Definition K (x : N) : Prop := ~ made L x.
  Notation cv k := (const_value sem (k_value k)).

  Lemma live_K x : In x (h_nodes h) -> K x.
  Proof. intros H Hm. apply (b_new _ _ _ _ _ B x Hm). exact H. Qed.
  Lemma parent_fwd a b : h_parent h a = Some b -> h_parent h1 a = Some b.
  Proof. intros H. rewrite (b_parent _ _ _ _ _ B); [exact H|]. apply live_K. apply (wf_parent_live h Wh a b H). Qed.
  Lemma parent_bwd a b : K a -> h_parent h1 a = Some b -> h_parent h a = Some b /\ K b.
  Proof. intros Ka H. rewrite (b_parent _ _ _ _ _ B a Ka) in H. split; [exact H|]. apply live_K. apply (wf_parent_live h Wh a b H). Qed.
  Lemma up_same n p : K n -> up (h_parent h) n p <-> up (h_parent h1) n p.
  Proof.
    intros Kn. split; [apply up_mono; apply parent_fwd|]. intros U. induction U as [n|n q p Hq U IH]; [constructor|].
    destruct (parent_bwd n q Kn Hq) as [Hq' Kq]. eapply up_next; [exact Hq'|apply IH; exact Kq].
  Qed.
  Lemma kids_front p i x : nth_error (h_kids h p) i = Some x -> nth_error (h_kids h1 p) i = Some x.
  Proof.
    intros H. destruct (b_kids _ _ _ _ _ B p) as (new & -> & _). rewrite nth_error_app1; [exact H|]. apply nth_error_Some. congruence.
  Qed.
  Lemma kid_live p x : In x (h_kids h p) -> In x (h_nodes h).
  Proof. intros H. apply (wf_kids _ Wh) in H. apply (wf_parent_live h Wh x p H). Qed.
  Lemma slo_same n i : K n -> ~ cut_at L n i -> single_linked_output h1 n i = single_linked_output h n i.
  Proof. intros H1 H2. unfold single_linked_output. rewrite (b_same _ _ _ _ _ B n i H1 H2). reflexivity. Qed.
  Lemma slo_live n i e : single_linked_output h n i = Some e -> In (fst e) (h_nodes h).
  Proof. destruct e as [m p]. intros H. apply slo_link in H. apply (links_live h _ _ _ _ Wh H). Qed.
  Lemma io_kids p i o : get_io h p = Some (i, o) -> h_parent h i = Some p /\ h_parent h o = Some p /\ (exists r, h_ops h i = OInput r) /\ In p (h_nodes h).
  Proof.
    intros H. destruct (io_live h p i o Wh H) as [Hp Hf]. destruct (t_region _ T p Hp Hf) as (a & b & rest & Hk & Ha & _).
    unfold get_io in H. rewrite Hf, Hk in H. injection H as -> ->. split; [apply (wf_kids _ Wh); rewrite Hk; left; reflexivity|].
    split; [apply (wf_kids _ Wh); rewrite Hk; right; left; reflexivity|]. auto.
  Qed.
  Lemma io_fwd p i o : get_io h p = Some (i, o) -> get_io h1 p = Some (i, o).
  Proof.
    intros H. destruct (io_live h p i o Wh H) as [Hp Hf]. unfold get_io in *. rewrite (b_ops _ _ _ _ _ B p (live_K p Hp)), Hf in *.
    destruct (b_kids _ _ _ _ _ B p) as (new & -> & _). destruct (h_kids h p) as [|a [|b l]]; try discriminate. exact H.
  Qed.

  Lemma mirror_fold : mirror h h1 K.
  Proof.
    constructor.
    - intros n _ Hn. apply (b_nodes _ _ _ _ _ B). auto.
    - intros n Kn. apply (b_ops _ _ _ _ _ B n Kn).
    - intros n p Kn. unfold get_parent, contains. rewrite (b_root _ _ _ _ _ B). destruct (memN n (h_nodes h) && negb (n =? h_root h)%N) eqn:Ea; [|discriminate]. intros Hp.
      apply andb_true_iff in Ea as [Ea ->]. apply memN_iff in Ea. rewrite (proj2 (memN_iff n (h_nodes h1))); [|apply (b_nodes _ _ _ _ _ B); auto].
      split; [cbn; apply parent_fwd; exact Hp|]. apply live_K. apply (wf_parent_live h Wh n p Hp).
    - intros n i o _ H. split; [apply io_fwd; exact H|]. destruct (io_kids n i o H) as (Hi & Ho & _). split; apply live_K; [apply (wf_parent_live h Wh i n Hi)|apply (wf_parent_live h Wh o n Ho)].
    - intros n p Kn Kp Hp. assert (Hp' : In p (h_nodes h1)) by (apply (b_nodes _ _ _ _ _ B); auto).
      pose proof (desc_iff h Wh p n Hp) as H1. pose proof (desc_iff h1 (b_wf _ _ _ _ _ B) p n Hp') as H2. unfold below in *.
      pose proof (up_same n p Kn) as H3. destruct (memN n (descendants h1 p)), (memN n (descendants h p)); try reflexivity; exfalso.
      + assert (X : false = true) by tauto. discriminate.
      + assert (X : false = true) by tauto. discriminate.
    - intros n c f g i Kn _ H. unfold DeadModel.static_source in *. rewrite (b_ops _ _ _ _ _ B n Kn). destruct (static_port (h_ops h n) Inc) as [j|] eqn:Ej; [|discriminate].
      rewrite (b_same _ _ _ _ _ B n j Kn (Hstat n j Ej)). split; [exact H|]. destruct (linked_outputs h n j) as [|[m p] l] eqn:El; [discriminate|]. injection H as <-.
      apply live_K. assert (Hi : In (m, p) (linked_outputs h n j)) by (rewrite El; left; reflexivity). apply in_outputs in Hi. apply (links_live h _ _ _ _ Wh Hi).
    - intros n e Kn Ho H. assert (Hc : ~ cut_at L n 0).
      { apply Hstat. destruct Ho as [(t & ->)|(f & a & i & ->)]; reflexivity. }
      rewrite (slo_same n 0 Kn Hc). split; [exact H|]. apply live_K. eapply slo_live. exact H.
    - intros n rows oi ou k c Kn _ Hc _. split; [apply kids_front; exact Hc|]. apply live_K. apply (kid_live n). eapply nth_error_In. exact Hc.
    - intros n g e Kn _ He. assert (H0 : nth_error (h_kids h n) 0 = Some e) by (destruct (h_kids h n); [discriminate|exact He]).
      split; [|apply live_K, (kid_live n); eapply nth_error_In; exact H0]. apply kids_front in H0. destruct (h_kids h1 n); [discriminate|exact H0].
    - intros n g e Kn _ He. split; [apply kids_front; exact He|]. apply live_K, (kid_live n). eapply nth_error_In. exact He.
    - intros n g t Kn _ Ht _. split; [|apply live_K, (kid_live n); exact Ht]. destruct (b_kids _ _ _ _ _ B n) as (new & -> & _). apply in_or_app. auto.
    - intros b k t j _ _ Hb Hin. assert (Hl : In ((b, k), (t, j)) (h_links h)).
      { unfold linked_inputs in Hin. apply in_map_iff in Hin as ([e1 e2] & Heq & Hin). apply filter_In in Hin as [Hin He]. apply ep_eqb_iff in He. cbn in *. subst. exact Hin. }
      assert (Hl1 : In ((b, k), (t, j)) (h_links h1)).
      { apply (b_left _ _ _ _ _ B); [exact Hl|]. cbn. intros (q & Hq & <- & <-). exact (Hctl q b k Hq Hb Hl). }
      unfold linked_inputs. apply in_map_iff. exists ((b, k), (t, j)). split; [reflexivity|]. apply filter_In. split; [exact Hl1|]. apply ep_eqb_iff. reflexivity.
    - intros f nm g pub Hf _. apply live_K. exact Hf.
  Qed.

  Definition loaded (fr fr' : frame) : Prop :=
    forall k p i o, In k L -> h_parent h (k_node k) = Some p -> get_io h p = Some (i, o) -> env fr i <> None -> env fr' (k_load k) = Some [cv k].
  (** The region of [m] is active. *)
  Definition ready (fr : frame) (m : N) : Prop := forall p i o, h_parent h m = Some p -> get_io h p = Some (i, o) -> env fr i <> None.
  Definition known (fr : frame) : Prop := forall k c, In k L -> arrives h fr (k_node k) (k_port k) c -> c = cv k.

  Lemma cut_dec n i : cut_at L n i \/ ~ cut_at L n i.
  Proof.
    destruct (existsb (fun k => N.eqb (k_node k) n && Nat.eqb (k_port k) i) L) eqn:Ee.
    - left. apply existsb_exists in Ee as (k & Hk & He). apply andb_true_iff in He as [H1 H2]. apply N.eqb_eq in H1. apply Nat.eqb_eq in H2. exists k. auto.
    - right. intros (k & Hk & <- & <-). assert (X : false = true); [|discriminate]. rewrite <- Ee. apply existsb_exists. exists k. rewrite N.eqb_refl, Nat.eqb_refl. auto.
  Qed.

  Lemma inputs_fold (fr fr' : frame) m cs : agree K fr fr' -> loaded fr fr' -> known fr -> K m -> ready fr m -> inputs h fr m cs -> inputs h1 fr' m cs.
  Proof.
    intros G Hl Hkn Km Hr H. unfold inputs in *. rewrite (ag_start _ _ _ G), (ag_args _ _ _ G), (b_ops _ _ _ _ _ B m Km). destruct (_ && _); [exact H|].
    destruct H as [HL H]. split; [unfold FlowModel.in_count in *; rewrite (b_ops _ _ _ _ _ B m Km); exact HL|]. intros i c Hc. pose proof (H i c Hc) as Ha.
    destruct (cut_dec m i) as [Hcut|Hcut].
    - destruct (b_cut _ _ _ _ _ B m i Hcut) as (k & Hk & <- & <- & Hlo). rewrite (Hkn k c Hk Ha).
      exists (k_load k), 0, [cv k]. split; [unfold single_linked_output; rewrite Hlo; reflexivity|]. split; [|reflexivity].
      destruct (b_place _ _ _ _ _ B k Hk) as (p & Hp & _). pose proof (Hflow k p Hk Hp) as Hf. assert (Hpl : In p (h_nodes h)) by apply (wf_parent_live h Wh _ p Hp).
      destruct (t_region _ T p Hpl Hf) as (a & b & rest & Hkid & _). assert (Hio : get_io h p = Some (a, b)) by (unfold get_io; rewrite Hf, Hkid; reflexivity).
      apply (Hl k p a b Hk Hp Hio). apply (Hr p a b Hp Hio).
    - destruct Ha as (s & p & row & H1 & H2 & H3). exists s, p, row. rewrite (slo_same m i Km Hcut). split; [exact H1|]. split; [|exact H3].
      rewrite (ag_env _ _ _ G s); [exact H2|]. apply live_K. exact (slo_live _ _ _ H1).
  Qed.

  Record inv (fr : frame) : Prop := {
    i_K : K (start fr);
    i_start : exists nm g pub, h_ops h (start fr) = OFuncDefn nm g pub;
    i_env : forall x, env fr x <> None -> below h x (start fr) /\ x <> start fr;
    i_in : forall i o, get_io h (start fr) = Some (i, o) -> env fr i <> None;
    i_pc : forall c b, pc fr c = Some b -> h_parent h b = Some c /\ forall i o, get_io h b = Some (i, o) -> env fr i <> None }.

  Lemma waiting_below fr n : inv fr -> waiting h fr n -> acts (h_ops h n) -> below h n (start fr) /\ n <> start fr /\ ready fr n.
  Proof.
    intros I0 (Hn & [Ha|Ha] & _) Hx.
    - destruct Ha as (p & i & o & row & Hp & Hio & He). assert (Hp' : h_parent h n = Some p) by (unfold get_parent in Hp; destruct (_ && _); [exact Hp|discriminate]).
      destruct (io_kids p i o Hio) as (Hi & _). destruct (i_env _ I0 i) as [U Hne]; [congruence|]. unfold below in *.
      assert (Up : up (h_parent h) p (start fr)) by (inversion U as [|? q ? Hq U']; subst; [congruence|]; rewrite Hi in Hq; injection Hq as <-; exact U').
      split; [eapply up_next; eassumption|]. split; [intros ->; exact (no_cycle h Wh _ _ Hp' Up)|].
      intros q j o' Hq Hj. rewrite Hp' in Hq. injection Hq as <-. rewrite Hio in Hj. injection Hj as <- _. congruence.
    - exfalso. subst n. destruct (i_start _ I0) as (nm & g & pub & H). rewrite H in Hx. exact Hx.
  Qed.
  Lemma input_not n i p o : get_io h p = Some (i, o) -> acts (h_ops h n) -> i <> n.
  Proof. intros H Hx ->. destruct (io_kids p n o H) as (_ & _ & (r & Hr) & _). rewrite Hr in Hx. exact Hx. Qed.
  Lemma input_inner i p o x q : get_io h p = Some (i, o) -> h_parent h x = Some q -> i <> q.
  Proof. intros H Hx ->. destruct (io_kids p q o H) as (_ & _ & (r & Hr) & _). pose proof (t_inner _ T x q Hx) as Hn. rewrite Hr in Hn. exact Hn. Qed.

  Lemma inv_put fr n (cs : list conc) : inv fr -> below h n (start fr) -> n <> start fr -> acts (h_ops h n) -> inv (put fr n cs).
  Proof.
    intros I0 U Hne Hx. assert (Hkeep : forall i, env fr i <> None -> env (put fr n cs) i <> None).
    { intros i Hi. cbn. unfold upd. destruct (N.eqb i n); [discriminate|exact Hi]. }
    constructor.
    - apply (i_K _ I0).
    - apply (i_start _ I0).
    - intros x. cbn. unfold upd. destruct (N.eqb_spec x n) as [->|]; [auto|apply (i_env _ I0)].
    - intros i o H. apply Hkeep. apply (i_in _ I0 i o H).
    - intros c b H. destruct (i_pc _ I0 c b H) as [H1 H2]. split; [exact H1|]. intros i o Hio. apply Hkeep. apply (H2 i o Hio).
  Qed.
  Lemma inv_enter fr p i o (cs : list conc) : inv fr -> below h p (start fr) -> p <> start fr -> get_io h p = Some (i, o) -> inv (enter h fr p i cs).
  Proof.
    intros I0 U Hne Hio. destruct (io_kids p i o Hio) as (Hi & _ & _ & Hp). constructor.
    - apply (i_K _ I0).
    - apply (i_start _ I0).
    - intros x. cbn. destruct (N.eqb_spec x i) as [->|].
      + intros _. split; [eapply up_next; eassumption|]. intros ->. exact (no_cycle h Wh _ _ Hi U).
      + destruct (memN x (descendants h p)); [congruence|apply (i_env _ I0)].
    - intros j o' Hj. cbn in Hj |- *. destruct (N.eqb_spec j i); [discriminate|]. destruct (memN j (descendants h p)) eqn:Em; [exfalso|apply (i_in _ I0 j o' Hj)].
      apply (desc_iff h Wh p j Hp) in Em. destruct (io_kids _ j o' Hj) as (Hjp & _). unfold below in *. inversion Em as [|? q ? Hq U']; subst.
      + exact (input_inner p _ o' i p Hj Hi eq_refl).
      + rewrite Hjp in Hq. injection Hq as <-. apply Hne. eapply (up_antisym h Wh); eassumption.
    - intros c b. cbn. destruct (memN c (descendants h p)) eqn:Ec; [discriminate|]. intros H. destruct (i_pc _ I0 c b H) as [Hb H2]. split; [exact Hb|].
      intros j o' Hj. destruct (N.eqb_spec j i); [discriminate|]. destruct (memN j (descendants h p)) eqn:Em; [exfalso|apply (H2 j o' Hj)].
      apply (desc_iff h Wh p j Hp) in Em. destruct (io_kids _ j o' Hj) as (Hjp & _). unfold below in *. inversion Em as [|? q ? Hq U']; subst.
      + exact (input_inner p _ o' i p Hj Hi eq_refl).
      + rewrite Hjp in Hq. injection Hq as <-. inversion U' as [|? q ? Hq U2]; subst; [rewrite Hio in Hj; congruence|].
        rewrite Hb in Hq. injection Hq as <-. apply (desc_iff h Wh p c Hp) in U2. congruence.
  Qed.
  Lemma inv_move fr c b : inv fr -> (forall p, b = Some p -> h_parent h p = Some c /\ forall i o, get_io h p = Some (i, o) -> env fr i <> None) -> inv (move fr c b).
  Proof.
    intros I0 Hb. constructor; try apply I0. intros x y. cbn. unfold upd. destruct (N.eqb_spec x c) as [->|]; [apply Hb|apply (i_pc _ I0)].
  Qed.
  Lemma inv_apply fr n a : inv fr -> waiting h fr n -> shape h n a -> inv (apply h a fr).
  Proof.
    intros I0 Hw Hs. destruct a as [m cs|p i cs|c p i cs|m cs]; cbn in Hs |- *.
    - destruct Hs as (-> & Hx & _). destruct (waiting_below fr n I0 Hw Hx) as (U & Hne & _). apply inv_put; assumption.
    - destruct Hs as ((o & Hio) & _ & Hp & Hx). destruct (waiting_below fr n I0 Hw Hx) as (U & Hne & _). apply (inv_enter fr p i o cs I0); [| |exact Hio].
      + destruct Hp as [->|Hp]; [exact U|eapply up_next; eassumption].
      + destruct Hp as [->|Hp]; [exact Hne|]. intros ->. exact (no_cycle h Wh _ _ Hp U).
    - destruct Hs as (-> & (o & Hio) & _ & Hp & Hx). destruct (waiting_below fr n I0 Hw Hx) as (U & Hne & _). apply inv_move.
      + apply (inv_enter fr p i o cs I0); [eapply up_next; eassumption| |exact Hio]. intros ->. exact (no_cycle h Wh _ _ Hp U).
      + intros q [= <-]. split; [exact Hp|]. intros j o' Hj. rewrite Hio in Hj. injection Hj as <- _. cbn. rewrite N.eqb_refl. discriminate.
    - destruct Hs as (-> & Hx & _). destruct (waiting_below fr n I0 Hw Hx) as (U & Hne & _). apply inv_move; [apply inv_put; assumption|discriminate].
  Qed.
  Lemma inv_new f i o nm g pub (cs : list conc) : h_ops h f = OFuncDefn nm g pub -> get_io h f = Some (i, o) -> inv (new_frame f i cs).
  Proof.
    intros Hf Hio. destruct (io_kids f i o Hio) as (Hi & _ & _ & Hl). constructor; cbn.
    - apply live_K. exact Hl.
    - eauto.
    - intros x. destruct (N.eqb_spec x i) as [->|]; [|congruence]. intros _. split; [eapply up_next; [exact Hi|constructor]|]. intros ->. apply (no_cycle h Wh _ _ Hi). constructor.
    - intros j o' Hj. rewrite Hio in Hj. injection Hj as <- _. rewrite N.eqb_refl. discriminate.
    - discriminate.
  Qed.

  (** ** The new constants are loaded as soon as a region is entered *)
  Lemma load_live k : In k L -> In (k_load k) (h_nodes h1) /\ made L (k_load k).
  Proof. intros Hk. assert (Hm : made L (k_load k)) by (exists k; auto). split; [apply (b_nodes _ _ _ _ _ B); auto|exact Hm]. Qed.
  Lemma same_load k k' : In k L -> In k' L -> k_load k = k_load k' -> cv k = cv k'.
  Proof.
    intros Hk Hk' He. pose proof (b_fed _ _ _ _ _ B k Hk) as H1. pose proof (b_fed _ _ _ _ _ B k' Hk') as H2. rewrite He in H1. rewrite H1 in H2. injection H2 as Hc.
    pose proof (b_const _ _ _ _ _ B k Hk) as C1. pose proof (b_const _ _ _ _ _ B k' Hk') as C2. rewrite Hc, C2 in C1. injection C1 as Hs _.
    rewrite <- (Hst k Hk), <- (Hst k' Hk'), Hs. reflexivity.
  Qed.
  Lemma load_step (fr : frame) k p i o r st : In k L -> h_parent h (k_node k) = Some p -> get_io h p = Some (i, o) -> K (start fr) -> env fr i <> None -> env fr (k_load k) = None ->
    step sem ctx h1 ((fr, r) :: st) ((put fr (k_load k) [cv k], r) :: st).
  Proof.
    intros Hk Hp Hio Ks Hi Hn. apply s_local. destruct (b_place _ _ _ _ _ B k Hk) as (q & Hq & _ & Hl). rewrite Hp in Hq. injection Hq as <-.
    destruct (load_live k Hk) as [Hlive Hm]. pose proof (b_load _ _ _ _ _ B k Hk) as Ho. apply s_leaf with (n := k_load k) (ins := []).
    - split; [exact Hlive|]. split; [|exact Hn]. left. destruct (env fr i) as [row|] eqn:Ei; [|congruence]. exists p, i, o, row. split; [|split; [apply io_fwd; exact Hio|exact Ei]].
      unfold get_parent, contains. rewrite (proj2 (memN_iff _ _) Hlive). destruct (wf_parent_live h1 (b_wf _ _ _ _ _ B) _ _ Hl) as (_ & _ & Hr).
      apply N.eqb_neq in Hr. rewrite Hr. exact Hl.
    - unfold inputs. destruct (N.eqb_spec (k_load k) (start fr)) as [He|_]; [exfalso; rewrite <- He in Ks; contradiction|]. cbn [andb]. unfold FlowModel.in_count, sig_of. rewrite Ho. cbn.
      split; [reflexivity|]. intros [|j] c Hc; discriminate.
    - pose proof (b_fed _ _ _ _ _ B k Hk) as Hf. pose proof (b_const _ _ _ _ _ B k Hk) as Hc. rewrite <- (Hst k Hk). eapply l_const; [exact Ho|unfold single_linked_output; rewrite Hf; reflexivity|exact Hc].
    - unfold fits, out_count, sig_of. rewrite Ho. reflexivity.
  Qed.

  Lemma steps_trans (g : hugr) (a b c : stack) : steps sem ctx g a b -> steps sem ctx g b c -> steps sem ctx g a c.
  Proof. intros H1 H2. induction H2; [exact H1|]. eapply steps_more; [apply IHsteps; exact H1|assumption]. Qed.

  Lemma load_all p i o r st : get_io h p = Some (i, o) -> forall ks (fr : frame), (forall k, In k ks -> In k L /\ h_parent h (k_node k) = Some p) ->
    K (start fr) -> env fr i <> None -> (forall k, In k ks -> env fr (k_load k) = None \/ env fr (k_load k) = Some [cv k]) ->
    exists fr', steps sem ctx h1 ((fr, r) :: st) ((fr', r) :: st) /\ start fr' = start fr /\ args fr' = args fr /\ pc fr' = pc fr /\
      (forall x, (forall k, In k ks -> x <> k_load k) -> env fr' x = env fr x) /\ forall k, In k ks -> env fr' (k_load k) = Some [cv k].
  Proof.
    intros Hio. destruct (io_kids p i o Hio) as (Hpi & _). assert (Ki : K i) by (apply live_K; apply (wf_parent_live h Wh i p Hpi)).
    induction ks as [|k ks IH]; intros fr Hks Ks Hi Hn.
    - exists fr. split; [constructor|]. do 3 (split; [reflexivity|]). split; [reflexivity|intros k []].
    - destruct (Hks k (or_introl eq_refl)) as [Hk Hp]. assert (Hik : i <> k_load k) by (intros ->; apply Ki; apply load_live; exact Hk).
      destruct (Hn k (or_introl eq_refl)) as [Hnone|Hsome].
      + destruct (IH (put fr (k_load k) [cv k])) as (fr' & Hs & H1 & H2 & H3 & H4 & H5).
        * intros k' Hk'. apply Hks. right. exact Hk'.
        * exact Ks.
        * cbn. rewrite upd_other by exact Hik. exact Hi.
        * intros k' Hk'. cbn. unfold upd. destruct (N.eqb_spec (k_load k') (k_load k)) as [He|_]; [|apply Hn; right; exact Hk'].
          right. rewrite (same_load k' k); [reflexivity|apply Hks; right; exact Hk'|exact Hk|exact He].
        * exists fr'. split; [eapply steps_trans; [eapply steps_more; [constructor|eapply load_step; eassumption]|exact Hs]|]. split; [exact H1|]. split; [exact H2|]. split; [exact H3|]. split.
          -- intros x Hx. rewrite H4; [|intros k' Hk'; apply Hx; right; exact Hk']. cbn. rewrite upd_other; [reflexivity|]. apply Hx. left. reflexivity.
          -- intros k' [<-|Hk']; [|apply H5; exact Hk']. destruct (in_dec N.eq_dec (k_load k) (map k_load ks)) as [Hin|Hin].
             ++ apply in_map_iff in Hin as (k' & He & Hk'). rewrite <- He, (H5 k' Hk'). rewrite (same_load k' k); [reflexivity|apply Hks; right; exact Hk'|exact Hk|exact He].
             ++ rewrite H4; [cbn; apply upd_same|]. intros k' Hk' He. apply Hin. rewrite He. apply in_map. exact Hk'.
      + destruct (IH fr) as (fr' & Hs & H1 & H2 & H3 & H4 & H5); [intros k' Hk'; apply Hks; right; exact Hk'|exact Ks|exact Hi|intros k' Hk'; apply Hn; right; exact Hk'|].
        exists fr'. split; [exact Hs|]. split; [exact H1|]. split; [exact H2|]. split; [exact H3|]. split.
        * intros x Hx. apply H4. intros k' Hk'. apply Hx. right. exact Hk'.
        * intros k' [<-|Hk']; [|apply H5; exact Hk']. destruct (in_dec N.eq_dec (k_load k) (map k_load ks)) as [Hin|Hin].
          -- apply in_map_iff in Hin as (k' & He & Hk'). rewrite <- He, (H5 k' Hk'). rewrite (same_load k' k); [reflexivity|apply Hks; right; exact Hk'|exact Hk|exact He].
          -- rewrite H4; [exact Hsome|]. intros k' Hk' He. apply Hin. rewrite He. apply in_map. exact Hk'.
  Qed.

  Definition cuts_in (p : N) : list cut := filter (fun k => match h_parent h (k_node k) with Some q => N.eqb q p | None => false end) L.
  Lemma cuts_iff p k : In k (cuts_in p) <-> In k L /\ h_parent h (k_node k) = Some p.
  Proof.
    unfold cuts_in. rewrite filter_In. destruct (h_parent h (k_node k)) as [q|]; [|intuition discriminate]. destruct (N.eqb_spec q p) as [->|Hne]; [tauto|]. intuition congruence.
  Qed.

  (** Entering region [p] in the second frame, then loading its constants. *)
  Lemma enter_loaded (fr fr' : frame) p i o cs pcf r st : agree K fr fr' -> loaded fr fr' -> K (start fr') -> get_io h p = Some (i, o) -> In p (h_nodes h) ->
    exists fr2, steps sem ctx h1 (({| start := start fr'; args := args fr'; env := env (enter h1 fr' p i cs); pc := pcf |}, r) :: st) ((fr2, r) :: st) /\
      start fr2 = start fr' /\ args fr2 = args fr' /\ pc fr2 = pcf /\ (forall x, K x -> env fr2 x = env (enter h1 fr' p i cs) x) /\ loaded (enter h fr p i cs) fr2.
  Proof.
    intros G Hl Ks Hio Hp. destruct (io_kids p i o Hio) as (Hpi & _). assert (Ki : K i) by (apply live_K; apply (wf_parent_live h Wh i p Hpi)).
    assert (Hp1 : In p (h_nodes h1)) by (apply (b_nodes _ _ _ _ _ B); auto). pose proof (b_wf _ _ _ _ _ B) as W1.
    destruct (load_all p i o r st Hio (cuts_in p) {| start := start fr'; args := args fr'; env := env (enter h1 fr' p i cs); pc := pcf |}) as (fr2 & Hs & H1 & H2 & H3 & H4 & H5).
    - intros k. apply cuts_iff.
    - exact Ks.
    - cbn. rewrite N.eqb_refl. discriminate.
    - intros k Hk. apply cuts_iff in Hk as [Hk Hkp]. left. cbn. destruct (load_live k Hk) as [_ Hm]. destruct (N.eqb_spec (k_load k) i) as [He|_]; [exfalso; apply Ki; rewrite <- He; exact Hm|].
      destruct (b_place _ _ _ _ _ B k Hk) as (q & Hq & _ & Hlp). rewrite Hkp in Hq. injection Hq as <-.
      rewrite (proj2 (desc_iff h1 W1 p (k_load k) Hp1)); [reflexivity|]. eapply up_next; [exact Hlp|constructor].
    - exists fr2. split; [exact Hs|]. split; [exact H1|]. split; [exact H2|]. split; [exact H3|]. split.
      + intros x Kx. apply H4. intros k Hk ->. apply cuts_iff in Hk as [Hk _]. apply Kx. apply load_live. exact Hk.
      + intros k q j o' Hk Hq Hj. cbn [env enter]. destruct (io_kids q j o' Hj) as (Hjq & _ & _ & Hql). destruct (N.eq_dec q p) as [->|Hne].
        * intros _. apply H5. apply cuts_iff. auto.
        * destruct (N.eqb_spec j i) as [->|_]; [congruence|]. destruct (memN j (descendants h p)) eqn:Em; [congruence|]. intros He.
          pose proof (Hl k q j o' Hk Hq Hj He) as Hv. destruct (b_place _ _ _ _ _ B k Hk) as (q' & Hq' & _ & Hlp). rewrite Hq in Hq'. injection Hq' as <-.
          destruct (load_live k Hk) as [_ Hm]. rewrite H4.
          -- cbn. destruct (N.eqb_spec (k_load k) i) as [Hei|_]; [exfalso; apply Ki; rewrite <- Hei; exact Hm|].
             destruct (memN (k_load k) (descendants h1 p)) eqn:Ed; [exfalso|exact Hv]. apply (desc_iff h1 W1 p _ Hp1) in Ed. unfold below in Ed.
             inversion Ed as [|? y ? Hy U]; subst; [exact (live_K _ Hp Hm)|]. rewrite Hlp in Hy. injection Hy as <-.
             apply (up_same q p (live_K q Hql)) in U. assert (Hd : memN j (descendants h p) = true) by (apply (desc_iff h Wh p j Hp); eapply up_next; eassumption). congruence.
          -- intros k' Hk' He'. apply cuts_iff in Hk' as [Hk' Hkp']. destruct (b_place _ _ _ _ _ B k' Hk') as (p' & Hp' & _ & Hlp'). rewrite <- He' in Hlp'. congruence.
  Qed.

  Definition rel (fr fr' : frame) : Prop := agree K fr fr' /\ inv fr /\ loaded fr fr'.
  Inductive rels : stack -> stack -> Prop :=
  | rs_one fr fr' : rel fr fr' -> rels [(fr, None)] [(fr', None)]
  | rs_call fr fr' n c r st c' st' : rel fr fr' -> below h n (start c) -> n <> start c -> acts (h_ops h n) -> K n -> rels ((c, r) :: st) ((c', r) :: st') ->
      rels ((fr, Some n) :: (c, r) :: st) ((fr', Some n) :: (c', r) :: st').


  Lemma loaded_put (fr fr' : frame) n cs : loaded fr fr' -> K n -> acts (h_ops h n) -> loaded (put fr n cs) (put fr' n cs).
  Proof.
    intros Hl Kn Hx k p i o Hk Hp Hio. cbn. rewrite upd_other by exact (input_not n i p o Hio Hx). intros He. rewrite upd_other; [exact (Hl k p i o Hk Hp Hio He)|].
    intros He'. apply Kn. rewrite <- He'. apply load_live. exact Hk.
  Qed.
  Lemma rel_put (fr fr' : frame) n cs : rel fr fr' -> below h n (start fr) -> n <> start fr -> K n -> acts (h_ops h n) -> rel (put fr n cs) (put fr' n cs).
  Proof. intros (G & I0 & Hl) U Hne Kn Hx. split; [apply agree_put; exact G|]. split; [apply inv_put; assumption|apply loaded_put; assumption]. Qed.

  Lemma looks_ready fr n m : inv fr -> ready fr n -> looks h fr n m -> ready fr m.
  Proof.
    intros I0 Hr [->|[(p & i & Hio & He & _)|(b & i & Hio & Hb)]]; [exact Hr| |]; intros q j o Hq Hj.
    - destruct (io_kids p i m Hio) as (_ & Ho & _). rewrite Ho in Hq. injection Hq as <-. rewrite Hio in Hj. injection Hj as <- _. exact He.
    - destruct (io_kids b i m Hio) as (_ & Ho & _). rewrite Ho in Hq. injection Hq as <-. apply (proj2 (i_pc _ I0 n b Hb) j o). exact Hj.
  Qed.

  Lemma local_fold fr fr2 fr' r st : rel fr fr' -> known fr -> local_step sem ctx h fr fr2 -> exists fr2', steps sem ctx h1 ((fr', r) :: st) ((fr2', r) :: st) /\ rel fr2 fr2'.
  Proof.
    intros (G & I0 & Hl) Hkn Hs. destruct (local_mirror sem ctx h h1 K Wh mirror_fold fr fr2 Hs) as (n & a & Hw & Hsh & -> & Ht & Hgo).
    assert (Hn : In n (h_nodes h)) by apply Hw. pose proof (live_K n Hn) as Kn. pose proof (Ht Kn) as Ka.
    assert (Hx : acts (h_ops h n)) by (destruct a; cbn in Hsh; tauto). destruct (waiting_below fr n I0 Hw Hx) as (U & Hne & Hr).
    pose proof (agree_apply h h1 K Wh mirror_fold fr fr' n a Hn G Hsh Ka) as G2. pose proof (inv_apply fr n a I0 Hw Hsh) as I2.
    assert (Hstep : step sem ctx h1 ((fr', r) :: st) ((apply h1 a fr', r) :: st)).
    { apply s_local. apply Hgo; [exact G|exact Kn|intros b Hb; apply live_K; apply (wf_parent_live h Wh b n); apply (i_pc _ I0 n b Hb)|].
      intros m cs Km Hlk. apply inputs_fold; try assumption. eapply looks_ready; eassumption. }
    assert (Ks : K (start fr')) by (rewrite (ag_start _ _ _ G); apply (i_K _ I0)).
    destruct a as [m cs|p i cs|c p i cs|m cs]; cbn [shape touched apply] in *.
    - destruct Hsh as (-> & _). exists (put fr' n cs). split; [eapply steps_more; [constructor|exact Hstep]|]. split; [exact G2|]. split; [exact I2|]. apply loaded_put; assumption.
    - destruct Hsh as ((o & Hio) & _). destruct (enter_loaded fr fr' p i o cs (pc (enter h1 fr' p i cs)) r st G Hl Ks Hio) as (fr3 & Hst3 & H1 & H2 & H3 & H4 & H5); [apply (io_kids p i o Hio)|].
      exists fr3. split; [eapply steps_trans; [eapply steps_more; [constructor|exact Hstep]|exact Hst3]|]. split; [|split; [exact I2|exact H5]].
      constructor; [rewrite H1; apply G|rewrite H2; apply G|intros x Kx; rewrite (H4 x Kx); apply (ag_env _ _ _ G2 x Kx)|intros x Kx; rewrite H3; apply (ag_pc _ _ _ G2 x Kx)].
    - destruct Hsh as (-> & (o & Hio) & _). destruct (enter_loaded fr fr' p i o cs (pc (move (enter h1 fr' p i cs) n (Some p))) r st G Hl Ks Hio) as (fr3 & Hst3 & H1 & H2 & H3 & H4 & H5); [apply (io_kids p i o Hio)|].
      exists fr3. split; [eapply steps_trans; [eapply steps_more; [constructor|exact Hstep]|exact Hst3]|]. split; [|split; [exact I2|exact H5]].
      constructor; [rewrite H1; apply G|rewrite H2; apply G|intros x Kx; rewrite (H4 x Kx); apply (ag_env _ _ _ G2 x Kx)|intros x Kx; rewrite H3; apply (ag_pc _ _ _ G2 x Kx)].
    - destruct Hsh as (-> & _). exists (move (put fr' n cs) n None). split; [eapply steps_more; [constructor|exact Hstep]|]. split; [exact G2|]. split; [exact I2|]. exact (loaded_put fr fr' n cs Hl Kn Hx).
  Qed.

  (** A new frame, with its constants loaded. *)
  Lemma new_loaded f i o nm g pub (ins : list conc) r st : h_ops h f = OFuncDefn nm g pub -> get_io h f = Some (i, o) ->
    exists fr', steps sem ctx h1 ((new_frame f i ins, r) :: st) ((fr', r) :: st) /\ rel (new_frame f i ins) fr'.
  Proof.
    intros Hf Hio. destruct (io_kids f i o Hio) as (Hi & _ & _ & Hfl). assert (Ki : K i) by (apply live_K; apply (wf_parent_live h Wh i f Hi)).
    destruct (load_all f i o r st Hio (cuts_in f) (new_frame f i ins)) as (fr2 & Hs & H1 & H2 & H3 & H4 & H5).
    - intros k. apply cuts_iff.
    - apply live_K. exact Hfl.
    - cbn. rewrite N.eqb_refl. discriminate.
    - intros k Hk. apply cuts_iff in Hk as [Hk _]. left. cbn. destruct (N.eqb_spec (k_load k) i) as [He|_]; [|reflexivity]. exfalso. apply Ki. rewrite <- He. apply load_live. exact Hk.
    - exists fr2. split; [exact Hs|]. split; [|split; [eapply inv_new; eassumption|]].
      + constructor; [exact H1|exact H2| |intros x _; rewrite H3; reflexivity]. intros x Kx. apply H4. intros k Hk ->. apply cuts_iff in Hk as [Hk _]. apply Kx. apply load_live. exact Hk.
      + intros k q j o' Hk Hq Hj. cbn. destruct (N.eqb_spec j i) as [->|_]; [|congruence]. intros _. apply H5. apply cuts_iff. split; [exact Hk|].
        destruct (io_kids q i o' Hj) as (Hjq & _). congruence.
  Qed.

  Definition top (st : stack) (fr : frame) : Prop := exists r rest, st = (fr, r) :: rest.
  Lemma step_fold st st2 st' : rels st st' -> (forall fr, top st fr -> known fr) -> step sem ctx h st st2 -> exists st2', steps sem ctx h1 st' st2' /\ rels st2 st2'.
  Proof.
    intros HR Hkn Hs. inversion Hs as [fr fr2 r st0 Hl E1 E2|fr r st0 n f nm g pub i o ins Hw Hc Hf Hi Hfit E1 E2|fr n frc r st0 i o outs Hi Hin Hfit E1 E2]; subst; assert (Hk : known fr) by (apply Hkn; eexists _, _; reflexivity).
    - inversion HR as [? fr' Hr E1 E2|? fr' n c r0 st1 c' st1' Hr U Hne Hx Kn HR' E1 E2]; subst.
      + destruct (local_fold fr fr2 fr' None [] Hr Hk Hl) as (fr2' & Hst2 & Hr2). exists [(fr2', None)]. split; [exact Hst2|]. constructor. exact Hr2.
      + destruct (local_fold fr fr2 fr' (Some n) ((c', r0) :: st1') Hr Hk Hl) as (fr2' & Hst2 & Hr2). exists ((fr2', Some n) :: (c', r0) :: st1'). split; [exact Hst2|]. constructor; assumption.
    - assert (Hfl : In f (h_nodes h)) by apply (io_kids f i o Hi). pose proof (live_K f Hfl) as Kf. assert (Hn : In n (h_nodes h)) by apply Hw. pose proof (live_K n Hn) as Kn.
      assert (Hx : acts (h_ops h n)) by (destruct Hc as [? ? ? ? ? Ho|? ? ? Ho]; rewrite Ho; exact Logic.I).
      assert (Hex : exists fr' st1', st' = (fr', r) :: st1' /\ rel fr fr') by (inversion HR; subst; eauto). destruct Hex as (fr' & st1' & -> & Hr). destruct Hr as (G & I0 & Hld).
      destruct (waiting_below fr n I0 Hw Hx) as (U & Hne & Hrd). destruct (m_io _ _ _ mirror_fold f i o Kf Hi) as (Hi' & Ki & _).
      destruct (new_loaded f i o nm g pub ins (Some n) ((fr', r) :: st1') Hf Hi) as (fr2 & Hst2 & Hr2). exists ((fr2, Some n) :: (fr', r) :: st1'). split.
      + eapply steps_trans; [eapply steps_more; [constructor|]|exact Hst2]. eapply s_call; [eapply waiting_mirror; [exact mirror_fold|eassumption|assumption|assumption]| |rewrite (m_ops _ _ _ mirror_fold f Kf); eassumption|exact Hi'|eapply fits_mirror; [exact mirror_fold|assumption|assumption]].
        eapply calls_mirror; [exact mirror_fold|exact Kn| |exact Hc]. intros cs. apply inputs_fold; assumption.
      + constructor; assumption.
    - inversion HR as [|? fr' ? c r0 st1 c' st1' Hr U Hne Hx Kn HR' E1 E2]; subst. destruct Hr as (G & I0 & Hld). destruct (io_kids _ i o Hi) as (Hip & Hop & _ & Hsl).
      destruct (m_io _ _ _ mirror_fold _ i o (i_K _ I0) Hi) as (Hi' & Ki & Ko).
      exists ((put c' n outs, r) :: st1'). split.
      + eapply steps_more; [constructor|]. eapply s_return; [rewrite (ag_start _ _ _ G); exact Hi'| |eapply fits_mirror; [exact mirror_fold|assumption|assumption]].
        apply (inputs_fold fr fr' o outs G Hld Hk Ko); [|exact Hin]. intros q j o' Hq Hj. rewrite Hop in Hq. injection Hq as <-. apply (i_in _ I0 j o'). exact Hj.
      + inversion HR' as [? ? Hr2 E1 E2|? ? n2 c2 r2 st2' c2' st2'' Hr2 U2 Hne2 Hx2 Kn2 HR2 E1 E2]; subst; constructor; try assumption; apply rel_put; assumption.
  Qed.

  Lemma steps_fold st st2 st' : rels st st' -> steps sem ctx h st st2 -> (forall x fr, steps sem ctx h st x -> top x fr -> known fr) -> exists st2', steps sem ctx h1 st' st2' /\ rels st2 st2'.
  Proof.
    intros HR Hs Hk. induction Hs as [st|a b c Hab IH Hbc]; [exists st'; split; [constructor|exact HR]|].
    destruct (IH HR Hk) as (b' & Hb' & HRb). destruct (step_fold b c b' HRb (fun fr => Hk b fr Hab) Hbc) as (c' & Hc' & HRc). exists c'. split; [eapply steps_trans; eassumption|exact HRc].
  Qed.

  Definition base (st : stack) : N := last (map (fun x : frame * option N => start (fst x)) st) 0%N.
  Lemma step_base st st2 : step sem ctx h st st2 -> base st2 = base st.
  Proof.
    intros H. destruct H as [fr fr' r st Hl|fr r st n f nm g pub i o ins Hw Hc Hf Hi Hfit|fr n fr' r st i o outs Hi Hin Hfit]; unfold base; cbn.
    - assert (He : start fr' = start fr) by (destruct Hl; reflexivity). rewrite He. reflexivity.
    - reflexivity.
    - reflexivity.
  Qed.
  Lemma steps_base st st2 : steps sem ctx h st st2 -> base st2 = base st.
  Proof. intros H. induction H as [|a b c H IH Hs]; [reflexivity|]. rewrite (step_base _ _ Hs). exact IH. Qed.

  (** What [h] computes, the HUGR with the broken wires computes. *)
  Theorem broken_evaluates f nm g pub ins outs : h_ops h f = OFuncDefn nm g pub ->
    (forall i o x fr, get_io h f = Some (i, o) -> steps sem ctx h [(new_frame f i ins, None)] x -> top x fr -> known fr) ->
    evaluates sem ctx h f ins outs -> evaluates sem ctx h1 f ins outs.
  Proof.
    intros Hf Hk (i & o & fr & Hio & Hfit & Hs & Hin). destruct (new_loaded f i o nm g pub ins None [] Hf Hio) as (fr0 & Hs0 & Hr0).
    destruct (steps_fold [(new_frame f i ins, None)] [(fr, None)] [(fr0, None)] (rs_one _ _ Hr0) Hs (fun x y => Hk i o x y Hio)) as (st2 & Hs2 & HR2).
    inversion HR2 as [? fr' Hr E1 E2|]; subst. destruct Hr as (G & I0 & Hl). destruct (io_kids f i o Hio) as (Hi & Ho & _ & Hfl). destruct (m_io _ _ _ mirror_fold f i o (live_K f Hfl) Hio) as (Hio' & Ki & Ko).
    exists i, o, fr'. split; [exact Hio'|]. split; [eapply fits_mirror; [exact mirror_fold|exact Ki|exact Hfit]|]. split; [eapply steps_trans; eassumption|].
    apply (inputs_fold fr fr' o outs G Hl); [|exact Ko| |exact Hin].
    - apply (Hk i o [(fr, None)] fr Hio Hs). eexists _, _. reflexivity.
    - assert (Hst' : start fr = f) by (exact (steps_base _ _ Hs)). 
      intros q j o' Hq Hj. rewrite Ho in Hq. injection Hq as <-. apply (i_in _ I0 j o'). rewrite Hst'. exact Hj.
  Qed.
End FoldSim.
