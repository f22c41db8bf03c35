(** Dropping nodes that nothing needs does not change what functions compute. *)
From Coq Require Import List Bool NArith Arith Lia.
From Verif Require Import PValModel TagModel TypesModel GraphModel GraphSpec PValSpec GraphProofs GraphRemove GraphBfs Graphs OpModel OpSpec DeadModel DeadSpec DeadProofs DeadProps InlineModel ReplaceModel ValidModel ValidSpec FlowModel FlowSpec EmitSpec EmitGraph MirrorProofs.
Import ListNotations.
Local Notation wf := GraphSpec.wf.

Lemma kids_live {M} (g : hugr op M) n c : wf g -> In c (h_kids g n) -> In n (h_nodes g).
Proof. intros Wg Hc. apply (wf_kids _ Wg) in Hc. apply (wf_parent_live g Wg c n Hc). Qed.
Lemma io_live {M} (g : hugr op M) n i o : wf g -> get_io g n = Some (i, o) -> In n (h_nodes g) /\ flow_parent (h_ops g n) = true.
Proof.
  intros Wg H. unfold get_io in H. destruct (flow_parent (h_ops g n)) eqn:Ef; [|discriminate]. destruct (h_kids g n) as [|a l] eqn:Ek; [discriminate|].
  split; [|reflexivity]. apply (kids_live g n a Wg). rewrite Ek. left. reflexivity.
Qed.

(** ** Simulation *)
Section Sim.
  Context {W V E F M : Type}.
  Notation conc := (conc W N unit).
  Notation hugr := (hugr op M).
  Notation frame := (@frame W).
  Notation stack := (@stack W).
  Variable sem : @semantics W E F.
  Variable ctx : @context V E F.
  Variable A B : hugr.
  Variable K : N -> Prop.
  Hypothesis WA : wf A.
  Hypothesis R : mirror A B K.
  Hypothesis Kdec : forall n, K n \/ ~ K n.
  Hypothesis Hdecl : forall f nm g pub, h_ops A f = OFuncDecl nm g pub -> K f.
  Hypothesis Hslo : forall n i e, K n -> single_linked_output A n i = Some e -> single_linked_output B n i = Some e /\ K (fst e).
  Hypothesis Hout : forall n p x, In n (h_nodes A) -> ~ K n -> p = n \/ h_parent A p = Some n -> K x -> memN x (descendants A p) = false.
  Hypothesis Hio : forall n p i o, In n (h_nodes A) -> ~ K n -> p = n \/ h_parent A p = Some n -> get_io A p = Some (i, o) -> ~ K i.

  Lemma inputs_mirror (fr fr' : frame) n cs : agree K fr fr' -> K n -> inputs A fr n cs -> inputs B fr' n cs.
  Proof.
    intros G Kn H. unfold inputs in *. rewrite (ag_start _ _ _ G), (ag_args _ _ _ G), (m_ops _ _ _ R n Kn). destruct (_ && _); [exact H|].
    destruct H as [HL H]. split; [unfold FlowModel.in_count in *; rewrite (m_ops _ _ _ R n Kn); exact HL|]. intros i c Hc. destruct (H i c Hc) as (m & p & row & H1 & H2 & H3).
    destruct (Hslo n i _ Kn H1) as [H1' Km]. exists m, p, row. rewrite (ag_env _ _ _ G m Km). auto.
  Qed.

  Definition pcs (fr : frame) : Prop := forall n b, K n -> pc fr n = Some b -> K b.
  Record paired (x y : frame * option N) : Prop := {
    p_agree : agree K (fst x) (fst y);
    p_pcs : pcs (fst x);
    p_start : K (start (fst x));
    p_caller : snd y = snd x;
    p_kept : forall n, snd x = Some n -> K n }.
  (** Frames that run on behalf of a node that is not there any more have no counterpart. *)
  Definition related (st st' : stack) : Prop :=
    exists above st0, st = above ++ st0 /\ Forall2 paired st0 st' /\
      (above = [] \/ exists l fr n, above = l ++ [(fr, Some n)] /\ ~ K n).

  Lemma pcs_apply fr n a : pcs fr -> shape A n a -> (K n -> K (touched a)) -> pcs (apply A a fr).
  Proof.
    intros H Hs Ht x b Kx. destruct a as [m cs|p i cs|c p i cs|m cs]; cbn.
    - apply H. exact Kx.
    - destruct (memN x (descendants A p)); [discriminate|]. apply H. exact Kx.
    - cbn in Hs. destruct Hs as (-> & _). unfold upd. destruct (N.eqb_spec x n) as [->|]; [intros [= <-]; apply Ht; exact Kx|].
      destruct (memN x (descendants A p)); [discriminate|]. apply H. exact Kx.
    - unfold upd. destruct (N.eqb_spec x m) as [->|]; [discriminate|]. apply H. exact Kx.
  Qed.
  Lemma agree_put fr fr' n (cs : list conc) : agree K fr fr' -> agree K (put fr n cs) (put fr' n cs).
  Proof. intros G. constructor; cbn; try apply G. intros x Kx. unfold upd. rewrite (ag_env _ _ _ G x Kx). reflexivity. Qed.
  Lemma agree_put_out fr fr' n (cs : list conc) : agree K fr fr' -> ~ K n -> agree K (put fr n cs) fr'.
  Proof. intros G Kn. constructor; cbn; try apply G. intros x Kx. unfold upd. destruct (N.eqb_spec x n) as [->|]; [contradiction|apply (ag_env _ _ _ G x Kx)]. Qed.
  Lemma agree_new f i (cs : list conc) : agree K (new_frame f i cs) (new_frame f i cs).
  Proof. constructor; reflexivity. Qed.

  Definition moves (st st' : stack) : Prop := st' = st \/ step sem ctx B st st'.

  Lemma junk_cons x (l : stack) : (l = [] \/ exists l' fr n, l = l' ++ [(fr, Some n)] /\ ~ K n) -> l <> [] -> exists l' fr n, x :: l = l' ++ [(fr, Some n)] /\ ~ K n.
  Proof. intros [->|(l' & fr & n & -> & Kn)] H; [congruence|]. exists (x :: l'), fr, n. auto. Qed.

  Lemma step_sim st st2 st' : related st st' -> step sem ctx A st st2 -> exists st2', moves st' st2' /\ related st2 st2'.
  Proof.
    intros (above & st0 & -> & HF & Hab) Hs. destruct above as [|top above].
    - cbn [app] in Hs. clear Hab. inversion Hs as [fr fr2 r st Hl E1 E2|fr r st n f nm g pub i o ins Hw Hc Hf Hi Hfit E1 E2|fr n frc r st i o outs Hi Hin Hfit E1 E2]; subst.
      + inversion HF as [|? [fr' r'] ? st'' [G Hpc Hst Hc Hk] HF']; subst. cbn in *. subst r'.
        destruct (local_mirror sem ctx A B K WA R fr fr2 Hl) as (n & a & Hw & Hsh & -> & Ht & Hgo).
        destruct (Kdec n) as [Kn|Kn].
        * exists ((apply B a fr', r) :: st''). split.
          -- right. apply s_local. apply Hgo; [exact G|exact Kn|intros b; apply Hpc; exact Kn|]. intros m cs Km _. apply inputs_mirror; assumption.
          -- exists [], ((apply A a fr, r) :: st). split; [reflexivity|]. split; [|left; reflexivity]. constructor; [|exact HF'].
             constructor; cbn; try assumption; [|eapply pcs_apply; eassumption|destruct a; exact Hst|reflexivity].
             eapply agree_apply; try eassumption; [apply Hw|apply Ht; exact Kn].
        * exists ((fr', r) :: st''). split; [left; reflexivity|]. exists [], ((apply A a fr, r) :: st). split; [reflexivity|]. split; [|left; reflexivity].
          constructor; [|exact HF']. constructor; cbn; try assumption; [|eapply pcs_apply; eassumption|destruct a; exact Hst|reflexivity].
          eapply agree_skip; try eassumption; [intros p Hp x Kx; eapply Hout; try eassumption; apply Hw|intros p i o Hp Hpi; eapply Hio; try eassumption; apply Hw].
      + inversion HF as [|? [fr' r'] ? st'' [G Hpc Hst Hcc Hk] HF']; subst. cbn in *. subst r'.
        destruct (Kdec n) as [Kn|Kn].
        * assert (Kf : K f) by (eapply (m_fun _ _ _ R); [apply (io_live A f i o WA Hi)|eassumption]). destruct (m_io _ _ _ R f i o Kf Hi) as (Hi' & Ki & _).
          exists ((new_frame f i ins, Some n) :: (fr', r) :: st''). split.
          -- right. eapply s_call; [eapply waiting_mirror; eassumption|eapply calls_mirror; try eassumption; intros cs; apply inputs_mirror; assumption|rewrite (m_ops _ _ _ R f Kf); eassumption|exact Hi'|eapply fits_mirror; eassumption].
          -- exists [], ((new_frame f i ins, Some n) :: (fr, r) :: st). split; [reflexivity|]. split; [|left; reflexivity]. constructor; [|constructor; [constructor; cbn; auto|exact HF']].
             constructor; cbn; [apply agree_new|intros x b _; discriminate|exact Kf|reflexivity|intros x [= <-]; exact Kn].
        * exists ((fr', r) :: st''). split; [left; reflexivity|]. exists [(new_frame f i ins, Some n)], ((fr, r) :: st). split; [reflexivity|].
          split; [constructor; [constructor; cbn; auto|exact HF']|]. right. exists [], (new_frame f i ins), n. auto.
      + inversion HF as [|? [fr' r'] ? st'' [G Hpc Hst Hcc Hk] HF']; subst. cbn in *. subst r'.
        inversion HF' as [|? [frc' r'] ? st3 [G' Hpc' Hst' Hcc' Hk'] HF3]; subst. cbn in *. subst r'.
        assert (Kn : K n) by (apply Hk; reflexivity). destruct (m_io _ _ _ R _ i o Hst Hi) as (Hi' & Ki & Ko).
        exists ((put frc' n outs, r) :: st3). split.
        * right. eapply s_return; [rewrite (ag_start _ _ _ G); exact Hi'|eapply inputs_mirror; eassumption|eapply fits_mirror; eassumption].
        * exists [], ((put frc n outs, r) :: st). split; [reflexivity|]. split; [|left; reflexivity]. constructor; [|exact HF3].
          constructor; cbn; try assumption; [apply agree_put; exact G'|reflexivity].
    - (* nothing happens in the other *)
      exists st'. split; [left; reflexivity|]. destruct Hab as [Hab|(l & frn & m & Hab & Km)]; [discriminate|].
      cbn [app] in Hs. inversion Hs as [fr fr2 r st Hl E1 E2|fr r st n f nm g pub i o ins Hw Hc Hf Hi Hfit E1 E2|fr n frc r st i o outs Hi Hin Hfit E1 E2]; subst.
      + exists ((fr2, r) :: above), st0. split; [reflexivity|]. split; [exact HF|]. right. destruct l as [|x l]; cbn [app] in Hab; inversion Hab; subst.
        * exists [], fr2, m. auto.
        * exists ((fr2, r) :: l), frn, m. auto.
      + exists ((new_frame f i ins, Some n) :: (fr, r) :: above), st0. split; [reflexivity|]. split; [exact HF|]. right.
        exists ((new_frame f i ins, Some n) :: l), frn, m. rewrite Hab. auto.
      + destruct above as [|[frc2 r2] above].
        * cbn [app] in *. destruct l as [|x l]; [|destruct l; discriminate]. injection Hab as -> ->. subst st0. inversion HF as [|? [fr' r'] ? st'' [G Hpc Hst Hcc Hk] HF']; subst. cbn in *. subst r'.
          exists [], ((put frc m outs, r) :: st). split; [reflexivity|]. split; [|left; reflexivity]. constructor; [|exact HF'].
          constructor; cbn; try assumption; [apply agree_put_out; assumption|reflexivity].
        * destruct l as [|x l]; [discriminate|]. cbn [app] in *. injection Hab as <- Hab. match goal with X : _ :: st = _ :: _ |- _ => injection X as <- <- -> end.
          exists ((put frc n outs, r) :: above), st0. split; [reflexivity|]. split; [exact HF|]. right. destruct l as [|x l]; cbn [app] in Hab; inversion Hab; subst.
          -- exists [], (put frn n outs), m. auto.
          -- exists ((put frc n outs, r) :: l), frn, m. auto.
  Qed.

  Lemma extern_sim st st2 st' : related st st' -> extern_step sem A st st2 -> exists st2', (st2' = st' \/ extern_step sem B st' st2') /\ related st2 st2'.
  Proof.
    intros (above & st0 & -> & HF & Hab) Hs. destruct above as [|top above].
    - cbn [app] in Hs. clear Hab. inversion Hs as [fr r st n f nm g pub ins outs Hw Hc Hf Hx Hfit E1 E2]; subst.
      inversion HF as [|? [fr' r'] ? st'' [G Hpc Hst Hcc Hk] HF']; subst. cbn in *. subst r'.
      destruct (Kdec n) as [Kn|Kn].
      + assert (Kf : K f) by (eapply Hdecl; eassumption). exists ((put fr' n outs, r) :: st''). split.
        * right. eapply s_extern; [eapply waiting_mirror; eassumption|eapply calls_mirror; try eassumption; intros cs; apply inputs_mirror; assumption|rewrite (m_ops _ _ _ R f Kf); eassumption|eassumption|eapply fits_mirror; eassumption].
        * exists [], ((put fr n outs, r) :: st). split; [reflexivity|]. split; [|left; reflexivity]. constructor; [|exact HF'].
          constructor; cbn; try assumption; [apply agree_put; exact G|reflexivity].
      + exists ((fr', r) :: st''). split; [left; reflexivity|]. exists [], ((put fr n outs, r) :: st). split; [reflexivity|]. split; [|left; reflexivity]. constructor; [|exact HF'].
        constructor; cbn; try assumption; [apply agree_put_out; assumption|reflexivity].
    - exists st'. split; [left; reflexivity|]. destruct Hab as [Hab|(l & frn & m & Hab & Km)]; [discriminate|].
      cbn [app] in Hs. inversion Hs as [fr r st n f nm g pub ins outs Hw Hc Hf Hx Hfit E1 E2]; subst.
      exists ((put fr n outs, r) :: above), st0. split; [reflexivity|]. split; [exact HF|]. right. destruct l as [|x l]; cbn [app] in Hab; inversion Hab; subst.
      + exists [], (put frn n outs), m. auto.
      + exists ((put fr n outs, r) :: l), frn, m. auto.
  Qed.

  Lemma steps_sim st st2 st' : related st st' -> steps sem ctx A st st2 -> exists st2', steps sem ctx B st' st2' /\ related st2 st2'.
  Proof.
    intros Hr Hs. induction Hs as [st|a b c Hs IH H]; [exists st'; split; [constructor|exact Hr]|]. destruct (IH Hr) as (b' & Hb & Rb).
    destruct (step_sim _ _ _ Rb H) as (c' & [->|Hc] & Rc); [eauto|]. exists c'. split; [eapply steps_more; eassumption|exact Rc].
  Qed.
  Lemma all_steps_sim st st2 st' : related st st' -> all_steps sem ctx A st st2 -> exists st2', all_steps sem ctx B st' st2' /\ related st2 st2'.
  Proof.
    intros Hr Hs. induction Hs as [st|a b c Hs IH H]; [exists st'; split; [constructor|exact Hr]|]. destruct (IH Hr) as (b' & Hb & Rb). destruct H as [H|H].
    - destruct (step_sim _ _ _ Rb H) as (c' & [->|Hc] & Rc); [eauto|]. exists c'. split; [eapply all_more; [eassumption|left; exact Hc]|exact Rc].
    - destruct (extern_sim _ _ _ Rb H) as (c' & [->|Hc] & Rc); [eauto|]. exists c'. split; [eapply all_more; [eassumption|right; exact Hc]|exact Rc].
  Qed.

  Lemma related_new f i (ins : list conc) : K f -> related [(new_frame f i ins, None)] [(new_frame f i ins, None)].
  Proof.
    intros Kf. exists [], [(new_frame f i ins, None)]. split; [reflexivity|]. split; [|left; reflexivity]. constructor; [|constructor].
    constructor; cbn; [apply agree_new|intros x b _; discriminate|exact Kf|reflexivity|discriminate].
  Qed.
  Lemma related_end fr st' : related [(fr, None)] st' -> exists fr', st' = [(fr', None)] /\ agree K fr fr'.
  Proof.
    intros (above & st0 & Heq & HF & [->|(l & x & n & -> & _)]).
    - cbn in Heq. subst st0. inversion HF as [|? [fr' r'] ? st'' [G Hpc Hst Hcc Hk] HF']; subst. inversion HF'; subst. cbn in *. subst r'. eauto.
    - exfalso. destruct l as [|y l]; [discriminate|]. destruct l; discriminate.
  Qed.

  (** What [A] computes, [B] computes as well. *)
  Lemma computes_sim f ins outs : K f -> computes sem ctx A f ins outs -> computes sem ctx B f ins outs.
  Proof.
    intros Kf (i & o & fr & Hi & Hfit & Hs & Hin). destruct (m_io _ _ _ R f i o Kf Hi) as (Hi' & Ki & Ko).
    destruct (all_steps_sim _ _ _ (related_new f i ins Kf) Hs) as (st' & Hs' & Hr). destruct (related_end _ _ Hr) as (fr' & -> & G).
    exists i, o, fr'. split; [exact Hi'|]. split; [eapply fits_mirror; eassumption|]. split; [exact Hs'|]. eapply inputs_mirror; eassumption.
  Qed.
End Sim.

(** ** HUGRs without the nodes of a list *)
(** What is used of validity. *)
Record tidy {M} (h : hugr op M) : Prop := {
  t_region : forall n, In n (h_nodes h) -> flow_parent (h_ops h n) = true ->
    exists a b rest, h_kids h n = a :: b :: rest /\ (exists r, h_ops h a = OInput r) /\ (exists r, h_ops h b = OOutput r);
  t_cond : forall n rows oi ou c, h_ops h n = OConditional rows oi ou -> In c (h_kids h n) -> is_case (h_ops h c) = true;
  t_cfg : forall n g, In n (h_nodes h) -> h_ops h n = OCfg g ->
    exists a b rest, h_kids h n = a :: b :: rest /\ is_block (h_ops h a) = true /\ exit_op (h_ops h b);
  t_inner : forall c p, h_parent h c = Some p -> not_input (h_ops h p);
  t_links : forall a i b j p, In ((a, i), (b, j)) (h_links h) -> h_parent h a = Some p ->
    below h b p \/ (is_block (h_ops h p) = true /\ exists q, h_parent h p = Some q /\ below h b q);
  t_linear : forall a i b j s t, In ((a, i), (b, j)) (h_links h) -> dataflow_signature (h_ops h a) = Some s ->
    nth_error (snd s) i = Some t -> copyable t = false -> h_parent h a = h_parent h b;
  t_fun : forall f p, h_parent h f = Some p -> is_function (h_ops h f) -> p = h_root h }.

Section Cull.
  Context {M : Type}.
  Notation hugr := (hugr op M).
  Variable h h' : hugr.
  Variable R : list N.
  Hypothesis Wh : wf h.
  Hypothesis Wh' : wf h'.
  Hypothesis C : culled h R h'.
  Hypothesis T : tidy h.
  Hypothesis Hup : forall m p, h_parent h m = Some p -> In p R -> In m R.
  Hypothesis Hstr : forall m p, h_parent h m = Some p -> structure (h_ops h m) -> In m R -> In p R.
  Hypothesis Hsrc : forall a i b j, In ((a, i), (b, j)) (h_links h) -> In a R -> In b R.
  Hypothesis Hfun : forall f, is_function (h_ops h f) -> ~ In f R.

  Definition kept_node (n : N) : Prop := memN n R = false.
  Notation K := kept_node.

  Lemma kn n : K n <-> ~ In n R.
  Proof. apply memN_false. Qed.
  Lemma ops_kept n : K n -> h_ops h' n = h_ops h n.
  Proof. intros H. rewrite (cu_ops _ _ _ C), H. reflexivity. Qed.
  Lemma kids_kept n : K n -> h_kids h' n = filter (fun c => negb (memN c R)) (h_kids h n).
  Proof. intros H. rewrite (cu_kids _ _ _ C), H. reflexivity. Qed.
  Lemma parent_kept n p : K n -> h_parent h n = Some p -> K p /\ h_parent h' n = Some p.
  Proof.
    intros H Hp. assert (Kp : K p) by (apply kn; intros Hi; apply (proj1 (kn n) H); eapply Hup; eassumption).
    split; [exact Kp|]. rewrite (cu_parent _ _ _ C), H, Hp, Kp. reflexivity.
  Qed.
  Lemma parent_back n p : h_parent h' n = Some p -> h_parent h n = Some p /\ K n /\ K p.
  Proof.
    rewrite (cu_parent _ _ _ C). unfold K. destruct (memN n R); [discriminate|]. destruct (h_parent h n) as [q|]; [|discriminate]. destruct (memN q R) eqn:Eq; [discriminate|].
    intros [= ->]. auto.
  Qed.
  Lemma nodes_iff n : In n (h_nodes h') <-> In n (h_nodes h) /\ K n.
  Proof. rewrite (cu_nodes _ _ _ C), filter_In, negb_true_iff. reflexivity. Qed.
  Lemma kid_str n m : K n -> In m (h_kids h n) -> structure (h_ops h m) -> K m.
  Proof. intros H Hm Hs. apply kn. intros Hi. apply (proj1 (kn n) H). eapply Hstr; [apply (wf_kids _ Wh); exact Hm|exact Hs|exact Hi]. Qed.
  Lemma up_kept n p : K n -> up (h_parent h) n p <-> up (h_parent h') n p.
  Proof.
    intros H. split.
    - intros U. induction U as [n|n q p Hq U IH]; [constructor|]. destruct (parent_kept n q H Hq) as [Kq Hq']. eapply up_next; [exact Hq'|apply IH; exact Kq].
    - apply up_mono. intros a b Hab. apply parent_back. exact Hab.
  Qed.
  Lemma desc_kept n p : K n -> K p -> In p (h_nodes h) -> memN n (descendants h' p) = memN n (descendants h p).
  Proof.
    intros Kn Kp Hp. assert (Hp' : In p (h_nodes h')) by (apply nodes_iff; auto).
    pose proof (desc_iff h Wh p n Hp) as H1. pose proof (desc_iff h' Wh' p n Hp') as H2. unfold below in *.
    destruct (memN n (descendants h' p)), (memN n (descendants h p)); try reflexivity; exfalso.
    - assert (X : false = true) by (apply H1, (up_kept n p Kn), H2; reflexivity). discriminate.
    - assert (X : false = true) by (apply H2, (up_kept n p Kn), H1; reflexivity). discriminate.
  Qed.
  Lemma outputs_kept n i : K n -> linked_outputs h' n i = linked_outputs h n i.
  Proof.
    intros Kn. unfold linked_outputs. rewrite (cu_links _ _ _ C), filter_filter. f_equal. apply filter_ext_in. intros [[a x] [b y]] Hin. cbn [fst snd].
    destruct (ep_eqb (b, y) (n, i)) eqn:Ee; [|apply andb_false_r]. apply ep_eqb_iff in Ee. injection Ee as -> ->. rewrite andb_true_r.
    rewrite Kn, orb_false_r. apply negb_true_iff. apply kn. intros Ha. apply (proj1 (kn n) Kn). eapply Hsrc; eassumption.
  Qed.
  Lemma source_kept n i m p : K n -> In (m, p) (linked_outputs h n i) -> K m.
  Proof.
    intros Kn Hin. unfold linked_outputs in Hin. apply in_map_iff in Hin as ([[a x] [b y]] & Heq & Hin). cbn in Heq. injection Heq as -> ->.
    apply filter_In in Hin as [Hin Ee]. apply ep_eqb_iff in Ee. cbn in Ee. injection Ee as -> ->. apply kn. intros Ha. apply (proj1 (kn n) Kn). eapply Hsrc; eassumption.
  Qed.
  Lemma slo_kept n i e : K n -> single_linked_output h n i = Some e -> single_linked_output h' n i = Some e /\ K (fst e).
  Proof.
    intros Kn H. unfold single_linked_output in *. rewrite (outputs_kept n i Kn). split; [exact H|]. destruct e as [m p]. apply (source_kept n i m p Kn).
    destruct (linked_outputs h n i) as [|x [|]]; try discriminate. injection H as ->. left. reflexivity.
  Qed.
  Lemma slo_back n i e : K n -> single_linked_output h' n i = Some e -> single_linked_output h n i = Some e /\ K (fst e).
  Proof.
    intros Kn H. assert (H' : single_linked_output h n i = Some e) by (unfold single_linked_output in *; rewrite <- (outputs_kept n i Kn); exact H).
    split; [exact H'|]. apply (slo_kept n i e Kn H').
  Qed.
  Lemma static_kept n c : K n -> DeadModel.static_source h n = Some c -> DeadModel.static_source h' n = Some c /\ K c.
  Proof.
    intros Kn H. unfold DeadModel.static_source in *. rewrite (ops_kept n Kn). destruct (static_port (h_ops h n) Inc) as [i|]; [|discriminate].
    rewrite (outputs_kept n i Kn). split; [exact H|]. destruct (linked_outputs h n i) as [|[m p] l] eqn:El; [discriminate|]. injection H as <-.
    apply (source_kept n i m p Kn). rewrite El. left. reflexivity.
  Qed.
  Lemma static_back n c : K n -> DeadModel.static_source h' n = Some c -> DeadModel.static_source h n = Some c /\ K c.
  Proof.
    intros Kn H. assert (H' : DeadModel.static_source h n = Some c).
    { unfold DeadModel.static_source in *. rewrite (ops_kept n Kn) in H. destruct (static_port (h_ops h n) Inc) as [i|]; [|discriminate]. rewrite (outputs_kept n i Kn) in H. exact H. }
    split; [exact H'|apply (static_kept n c Kn H')].
  Qed.
  Lemma case_kids n rows oi ou : K n -> h_ops h n = OConditional rows oi ou -> h_kids h' n = h_kids h n.
  Proof.
    intros Kn Ho. rewrite (kids_kept n Kn). apply filter_all. intros c Hc. apply negb_true_iff. apply (kid_str n c Kn Hc). pose proof (t_cond _ T n _ _ _ c Ho Hc) as H.
    destruct (h_ops h c); try discriminate. exact Logic.I.
  Qed.
  Lemma cfg_kids n g : K n -> In n (h_nodes h) -> h_ops h n = OCfg g -> exists a b rest rest', h_kids h n = a :: b :: rest /\ h_kids h' n = a :: b :: rest' /\ K a /\ K b.
  Proof.
    intros Kn Hn Ho. destruct (t_cfg _ T n g Hn Ho) as (a & b & rest & Hk & Ha & Hb). rewrite (kids_kept n Kn), Hk. cbn [filter].
    assert (Ka : K a). { apply (kid_str n a Kn); [rewrite Hk; left; reflexivity|]. destruct (h_ops h a); try discriminate. exact Logic.I. }
    assert (Kb : K b). { apply (kid_str n b Kn); [rewrite Hk; right; left; reflexivity|]. destruct (h_ops h b); try contradiction. exact Logic.I. }
    unfold K in Ka, Kb. rewrite Ka, Kb. cbn [negb]. do 4 eexists. repeat split; eauto.
  Qed.
  Lemma io_kids n : K n -> In n (h_nodes h) -> flow_parent (h_ops h n) = true -> exists a b rest rest', h_kids h n = a :: b :: rest /\ h_kids h' n = a :: b :: rest' /\ K a /\ K b.
  Proof.
    intros Kn Hn Ho. destruct (t_region _ T n Hn Ho) as (a & b & rest & Hk & (ra & Ha) & (rb & Hb)). rewrite (kids_kept n Kn), Hk. cbn [filter].
    assert (Ka : K a). { apply (kid_str n a Kn); [rewrite Hk; left; reflexivity|]. rewrite Ha. exact Logic.I. }
    assert (Kb : K b). { apply (kid_str n b Kn); [rewrite Hk; right; left; reflexivity|]. rewrite Hb. exact Logic.I. }
    unfold K in Ka, Kb. rewrite Ka, Kb. cbn [negb]. do 4 eexists. repeat split; eauto.
  Qed.
  Lemma block_kept n t : K n -> In t (h_kids h n) -> is_block (h_ops h t) = true -> K t.
  Proof. intros Kn Ht Hb. apply (kid_str n t Kn Ht). destruct (h_ops h t); try discriminate. exact Logic.I. Qed.
  Lemma in_kids_kept n t : K n -> In t (h_kids h' n) <-> In t (h_kids h n) /\ K t.
  Proof. intros Kn. rewrite (kids_kept n Kn), filter_In, negb_true_iff. reflexivity. Qed.
  Lemma next_kept b k t j : K b -> K t -> In (t, j) (linked_inputs h b k) <-> In (t, j) (linked_inputs h' b k).
  Proof.
    intros Kb Kt. unfold linked_inputs. rewrite (cu_links _ _ _ C), filter_filter, !in_map_iff. split; intros ([[a x] [c y]] & Heq & Hin); exists ((a, x), (c, y)); (split; [exact Heq|]);
      cbn in Heq; injection Heq as -> ->; apply filter_In in Hin as [Hin He]; apply filter_In; (split; [exact Hin|]); cbn [fst snd] in *.
    - rewrite He, andb_true_r. apply ep_eqb_iff in He. injection He as -> ->. rewrite Kb, Kt. reflexivity.
    - apply andb_true_iff in He as [_ He]. exact He.
  Qed.
  Lemma first_live (g : hugr) n e : wf g -> hd_error (h_kids g n) = Some e -> In n (h_nodes g).
  Proof. intros Wg He. apply (kids_live g n e Wg). apply hd_in. exact He. Qed.

  Lemma mirror_kept : mirror h h' K.
  Proof.
    constructor.
    - intros n Kn Hn. apply nodes_iff. auto.
    - apply ops_kept.
    - intros n p Kn. unfold get_parent, contains. rewrite (cu_root _ _ _ C). destruct (memN n (h_nodes h) && negb (n =? h_root h)%N) eqn:Ea; [|discriminate]. intros Hp.
      apply andb_true_iff in Ea as [Ea ->]. apply memN_iff in Ea. destruct (parent_kept n p Kn Hp) as [Kp Hp']. rewrite (proj2 (memN_iff n _)); [auto|apply nodes_iff; auto].
    - intros n i o Kn H. destruct (io_live h n i o Wh H) as [Hn Hf]. destruct (io_kids n Kn Hn Hf) as (a & b & rest & rest' & Hk & Hk' & Ka & Kb).
      unfold get_io in *. rewrite (ops_kept n Kn), Hf, Hk'. rewrite Hf, Hk in H. injection H as -> ->. auto.
    - apply desc_kept.
    - intros n c f g i Kn _. apply static_kept. exact Kn.
    - intros n e Kn _. apply slo_kept. exact Kn.
    - intros n rows oi ou k c Kn Ho Hc Hcase. rewrite (case_kids n _ _ _ Kn Ho). split; [exact Hc|]. apply (kid_str n c Kn); [eapply nth_error_In; exact Hc|].
      destruct (h_ops h c); try discriminate. exact Logic.I.
    - intros n g e Kn Ho He. destruct (cfg_kids n g Kn (first_live h n e Wh He) Ho) as (a & b & rest & rest' & Hk & Hk' & Ka & Kb). rewrite Hk'. rewrite Hk in He. injection He as ->. auto.
    - intros n g e Kn Ho He. assert (Hn : In n (h_nodes h)) by (apply (kids_live h n e Wh); eapply nth_error_In; exact He).
      destruct (cfg_kids n g Kn Hn Ho) as (a & b & rest & rest' & Hk & Hk' & Ka & Kb). rewrite Hk'. rewrite Hk in He. injection He as ->. auto.
    - intros n g t Kn Ho Ht Hb. pose proof (block_kept n t Kn Ht Hb) as Kt. split; [apply in_kids_kept; auto|exact Kt].
    - intros b k t j Kb Kt _. apply next_kept; assumption.
    - intros f nm g pub _ H. apply kn, Hfun. rewrite H. exact Logic.I.
  Qed.

  Lemma mirror_back : mirror h' h K.
  Proof.
    constructor.
    - intros n Kn Hn. apply nodes_iff in Hn. apply Hn.
    - intros n Kn. symmetry. apply ops_kept. exact Kn.
    - intros n p Kn. unfold get_parent, contains. rewrite (cu_root _ _ _ C). destruct (memN n (h_nodes h') && negb (n =? h_root h)%N) eqn:Ea; [|discriminate]. intros Hp.
      apply andb_true_iff in Ea as [Ea ->]. apply memN_iff in Ea. apply nodes_iff in Ea as [Ea _]. destruct (parent_back n p Hp) as (Hp' & _ & Kp). rewrite (proj2 (memN_iff n _) Ea). auto.
    - intros n i o Kn H. destruct (io_live h' n i o Wh' H) as [Hn Hf]. apply nodes_iff in Hn as [Hn _]. rewrite (ops_kept n Kn) in Hf.
      destruct (io_kids n Kn Hn Hf) as (a & b & rest & rest' & Hk & Hk' & Ka & Kb).
      unfold get_io in *. rewrite (ops_kept n Kn) in H. rewrite Hf, Hk. rewrite Hf, Hk' in H. injection H as -> ->. auto.
    - intros n p Kn Kp Hp. symmetry. apply desc_kept; try assumption. apply nodes_iff in Hp. apply Hp.
    - intros n c f g i Kn _. apply static_back. exact Kn.
    - intros n e Kn _. apply slo_back. exact Kn.
    - intros n rows oi ou k c Kn Ho Hc Hcase. rewrite (ops_kept n Kn) in Ho. rewrite (case_kids n _ _ _ Kn Ho) in Hc. split; [exact Hc|].
      apply (kid_str n c Kn); [eapply nth_error_In; exact Hc|]. pose proof (t_cond _ T n _ _ _ c Ho (nth_error_In _ _ Hc)) as H. destruct (h_ops h c); try discriminate. exact Logic.I.
    - intros n g e Kn Ho He. rewrite (ops_kept n Kn) in Ho. pose proof (first_live h' n e Wh' He) as Hn. apply nodes_iff in Hn as [Hn _].
      destruct (cfg_kids n g Kn Hn Ho) as (a & b & rest & rest' & Hk & Hk' & Ka & Kb). rewrite Hk. rewrite Hk' in He. injection He as ->. auto.
    - intros n g e Kn Ho He. rewrite (ops_kept n Kn) in Ho. assert (Hn : In n (h_nodes h')) by (apply (kids_live h' n e Wh'); eapply nth_error_In; exact He). apply nodes_iff in Hn as [Hn _].
      destruct (cfg_kids n g Kn Hn Ho) as (a & b & rest & rest' & Hk & Hk' & Ka & Kb). rewrite Hk. rewrite Hk' in He. injection He as ->. auto.
    - intros n g t Kn Ho Ht Hb. apply (in_kids_kept n t Kn) in Ht. exact Ht.
    - intros b k t j Kb Kt _. apply next_kept; assumption.
    - intros f nm g pub _ H. unfold K. rewrite (cu_ops _ _ _ C f) in H. destruct (memN f R); [discriminate|reflexivity].
  Qed.

  Lemma decl_kept f nm g pub : h_ops h f = OFuncDecl nm g pub -> K f.
  Proof. intros H. apply kn, Hfun. rewrite H. exact Logic.I. Qed.
  Lemma decl_back f nm g pub : h_ops h' f = OFuncDecl nm g pub -> K f.
  Proof. intros H. unfold K. rewrite (cu_ops _ _ _ C f) in H. destruct (memN f R); [discriminate|reflexivity]. Qed.
  Lemma kept_dec n : K n \/ ~ K n.
  Proof. unfold K. destruct (memN n R); [right; discriminate|left; reflexivity]. Qed.

  Lemma inside_dropped n p : ~ K n -> p = n \/ h_parent h p = Some n -> ~ K p.
  Proof. intros Kn [->|Hp]; [exact Kn|]. intros Kp. apply Kn. apply (parent_kept p n Kp Hp). Qed.

  Context {W V E F : Type}.
  Variable sem : @semantics W E F.
  Variable ctx : @context V E F.

  Theorem culled_computes f ins outs : K f -> computes sem ctx h f ins outs <-> computes sem ctx h' f ins outs.
  Proof.
    intros Kf. split; intros H.
    - refine (computes_sim sem ctx h h' K Wh mirror_kept kept_dec decl_kept slo_kept _ _ f ins outs Kf H).
      + intros n p x Hn Kn Hp Kx. destruct (memN x (descendants h p)) eqn:Em; [exfalso|reflexivity]. pose proof (inside_dropped n p Kn Hp) as Kp.
        assert (Hpl : In p (h_nodes h)) by (destruct Hp as [->|Hp]; [exact Hn|apply (wf_parent_live h Wh p n Hp)]).
        apply (desc_iff h Wh p x Hpl) in Em. unfold below in Em. apply Kp. clear - Em Kx Hup C. induction Em as [x|x q p Hq U IH]; [exact Kx|]. apply IH. apply (parent_kept x q Kx Hq).
      + intros n p i o Hn Kn Hp Hio Ki. pose proof (inside_dropped n p Kn Hp) as Kp. apply Kp. unfold get_io in Hio. destruct (flow_parent _); [|discriminate].
        destruct (h_kids h p) as [|a [|b l]] eqn:Ek; try discriminate. injection Hio as -> ->. apply (parent_kept i p Ki). apply (wf_kids _ Wh). rewrite Ek. left. reflexivity.
    - refine (computes_sim sem ctx h' h K Wh' mirror_back kept_dec decl_back slo_back _ _ f ins outs Kf H).
      + intros n p x Hn Kn. exfalso. apply Kn. apply nodes_iff in Hn. apply Hn.
      + intros n p i o Hn Kn. exfalso. apply Kn. apply nodes_iff in Hn. apply Hn.
  Qed.

  Theorem culled_steps f i ins fr : K f ->
    steps sem ctx h [(new_frame f i ins, None)] [(fr, None)] -> exists fr', steps sem ctx h' [(new_frame f i ins, None)] [(fr', None)] /\ forall n cs, K n -> inputs h fr n cs -> inputs h' fr' n cs.
  Proof.
    intros Kf H.
    assert (Hout : forall n p x, In n (h_nodes h) -> ~ K n -> p = n \/ h_parent h p = Some n -> K x -> memN x (descendants h p) = false).
    { intros n p x Hn Kn Hp Kx. destruct (memN x (descendants h p)) eqn:Em; [exfalso|reflexivity]. pose proof (inside_dropped n p Kn Hp) as Kp.
      assert (Hpl : In p (h_nodes h)) by (destruct Hp as [->|Hp]; [exact Hn|apply (wf_parent_live h Wh p n Hp)]).
      apply (desc_iff h Wh p x Hpl) in Em. unfold below in Em. apply Kp. clear - Em Kx Hup C. induction Em as [x|x q p Hq U IH]; [exact Kx|]. apply IH. apply (parent_kept x q Kx Hq). }
    assert (Hio : forall n p i o, In n (h_nodes h) -> ~ K n -> p = n \/ h_parent h p = Some n -> get_io h p = Some (i, o) -> ~ K i).
    { intros n p j o Hn Kn Hp Hio Ki. pose proof (inside_dropped n p Kn Hp) as Kp. apply Kp. unfold get_io in Hio. destruct (flow_parent _); [|discriminate].
      destruct (h_kids h p) as [|a [|b l]] eqn:Ek; try discriminate. injection Hio as -> ->. apply (parent_kept j p Ki). apply (wf_kids _ Wh). rewrite Ek. left. reflexivity. }
    destruct (steps_sim sem ctx h h' K Wh mirror_kept kept_dec slo_kept Hout Hio _ _ _ (related_new K f i ins Kf) H) as (st' & Hs & Hr).
    destruct (related_end K fr st' Hr) as (fr' & -> & G). exists fr'. split; [exact Hs|]. intros n cs Kn. apply (inputs_mirror h h' K mirror_kept slo_kept fr fr' n cs G Kn).
  Qed.
End Cull.

(** ** Valid HUGRs *)
Lemma valid_tidy {M} env defs (h : hugr op M) : wf h -> valid env defs h -> tidy h.
Proof.
  intros Wh V. constructor.
  - intros n Hn Hf. destruct (parent_region _ Hf) as (ins & outs & Hr). destruct (v_region _ _ _ V n Hn ins outs Hr) as [(a & b & rest & Hk & Ha & Hb & _) _].
    exists a, b, rest. split; [exact Hk|]. split; eexists; eassumption.
  - intros n rows oi ou c Ho Hc. pose proof (v_tree _ _ _ V c n (proj1 (wf_kids _ Wh n c) Hc)) as Ht. rewrite Ho in Ht. inversion Ht as [| | | | |? ? ? ? Hx| | | |? ? ? ? Hr|? ? ? ? Hr|? ? ? ? Hr]; subst; try reflexivity; inversion Hr.
  - intros n [gi go] Hn Ho. destruct (v_cfg _ _ _ V n Hn gi go Ho) as [(a & b & rest & Hk & (oo & rows & Ha) & Hb & _) _]. exists a, b, rest. split; [exact Hk|].
    rewrite Ha, Hb. split; [reflexivity|exact Logic.I].
  - intros c p Hp. pose proof (v_tree _ _ _ V c p Hp) as Ht. inversion Ht as [| | | | |? ? ? ? Hx| | | |? ? ? ? Hr|? ? ? ? Hr|? ? ? ? Hr]; subst; try exact Logic.I; inversion Hr; exact Logic.I.
  - intros a i b j p Hl Hp. destruct (v_links _ _ _ V a i b j Hl) as (k & _ & _ & Hle). destruct Hle as [q H1 H2|q Hk H1 H2 H3|t q x Hk Hc H1 H2 H3 H4 H5|t q c g x Hk Hc H1 H2 H3 H4 H5 H6 H7 H8].
    + rewrite H1 in Hp. injection Hp as <-. left. eapply up_next; [exact H2|constructor].
    + rewrite H1 in Hp. injection Hp as <-. left. exact H2.
    + rewrite H1 in Hp. injection Hp as <-. left. eapply up_trans; [exact H3|]. eapply up_next; [exact H2|constructor].
    + rewrite H1 in Hp. injection Hp as <-. right. split.
      * pose proof (v_tree _ _ _ V q c H2) as Ht. rewrite H3 in Ht. pose proof (v_tree _ _ _ V a q H1) as Ht'.
        destruct (h_ops h q); inversion Ht; subst; try reflexivity; try (match goal with X : region (OCfg _) _ _ |- _ => inversion X end); inversion Ht'; subst; match goal with X : region _ _ _ |- _ => inversion X end.
      * exists c. split; [exact H2|]. eapply up_trans; [exact H5|]. eapply up_next; [exact H4|constructor].
  - intros a i b j s t Hl Hs Ht Hc. destruct (v_links _ _ _ V a i b j Hl) as (k & Hk & _ & Hle).
    assert (Hkt : k = EValue t).
    { destruct Hk as (ks & Hp & Hn). rewrite (ports_row _ _ _ Hp) in Hn. unfold layout_row in Hn.
      assert (Hv : nth_error (values (side Out (sig_of (h_ops h a)))) i = Some (EValue t)).
      { unfold values, sig_of. rewrite Hs. cbn [side]. apply map_nth_error. exact Ht. }
      assert (Hi : i < length (values (side Out (sig_of (h_ops h a))))) by (apply nth_error_Some; congruence).
      rewrite nth_error_app1 in Hn by exact Hi. congruence. }
    assert (Hlin : lub t = Linear) by (unfold copyable in Hc; destruct (lub t); [discriminate|reflexivity] || (destruct (lub t); [reflexivity|discriminate])).
    destruct Hle as [q H1 H2|q Hx H1 H2 H3|t' q x Hx Hy H1 H2 H3 H4 H5|t' q c g x Hx Hy H1 H2 H3 H4 H5 H6 H7 H8].
    + congruence.
    + exfalso. destruct Hx as [(t' & Hx)|(f & Hx)]; congruence.
    + exfalso. rewrite Hkt in Hx. injection Hx as <-. congruence.
    + exfalso. rewrite Hkt in Hx. injection Hx as <-. congruence.
  - intros f p Hp Hf. pose proof (v_tree _ _ _ V f p Hp) as Ht.
    assert (Hm : h_ops h p = OModule).
    { destruct (h_ops h f); try contradiction; inversion Ht; subst; try reflexivity; match goal with X : in_dataflow _ |- _ => inversion X end. }
    destruct (N.eq_dec p (h_root h)) as [|Hne]; [assumption|exfalso]. destruct (wf_parent _ Wh p) as (q & Hq & _); [apply (wf_parent_live h Wh f p Hp)|exact Hne|].
    pose proof (v_tree _ _ _ V p q Hq) as Ht2. rewrite Hm in Ht2. inversion Ht2; subst; match goal with X : in_dataflow _ |- _ => inversion X end.
Qed.

Lemma tidy_scoped {M} cb (h : hugr op M) entries : tidy h ->
  (forall e a, In e entries -> below h e a -> below h a (h_entry h) -> needed cb h entries a) -> scoped cb h entries.
Proof.
  intros T Hp. constructor; [|apply (t_linear _ T)|exact Hp]. intros a i b j p Hl Ha. destruct (t_links _ T a i b j p Hl Ha) as [H|[Hb H]]; [left; exact H|right].
  split; [|exact H]. destruct (h_ops h p); try discriminate. exact Logic.I.
Qed.

(** The conditions under which dead code elimination keeps what functions compute: the entrypoint is not a block (whose values may be
    used by other blocks), entry points are not hidden in nodes that nothing needs, and functions are kept. *)
Record keeps_functions {M} cb (h : hugr op M) (entries : list N) : Prop := {
  kf_entry : is_block (h_ops h (h_entry h)) = false;
  kf_points : forall e a, In e entries -> below h e a -> below h a (h_entry h) -> needed cb h entries a;
  kf_functions : forall f, is_function (h_ops h f) -> h_entry h = h_root h -> In f (h_nodes h) -> needed cb h entries f }.

Section Dce.
  Context {M : Type}.
  Variable cb : hugr op M -> N -> preserve.
  Variable h h' : hugr op M.
  Variable entries : list N.
  Hypothesis Wh : wf h.
  Hypothesis T : tidy h.
  Hypothesis KF : keeps_functions cb h entries.
  Hypothesis Hd : dce cb h entries = Some (Done h').

  Lemma dce_culled : exists R, wf h' /\ culled h R h' /\ (forall n, In n R <-> below h n (h_entry h) /\ ~ needed cb h entries n) /\ (forall m p, h_parent h m = Some p -> In p R -> In m R) /\ (forall m p, h_parent h m = Some p -> structure (h_ops h m) -> In m R -> In p R) /\ (forall a i b j, In ((a, i), (b, j)) (h_links h) -> In a R -> In b R) /\ (forall f, In f (h_nodes h) -> is_function (h_ops h f) -> ~ In f R).
  Proof.
    pose proof (tidy_scoped cb h entries T (kf_points _ _ _ KF)) as S. pose proof (dce_wf cb h h' entries Wh S Hd) as Wh'.
    pose proof (dce_spec cb h entries Wh) as X. rewrite Hd in X. destruct X as (Hlive & R & C & HR). unfold unneeded in HR.
    assert (HR' : forall n, In n R <-> below h n (h_entry h) /\ ~ needed cb h entries n) by (intros n; rewrite (HR n); reflexivity).
    assert (Hne : forall n, In n R -> n <> h_entry h) by (intros n Hn ->; apply HR' in Hn as [_ Hn]; apply Hn; constructor).
    exists R. split; [exact Wh'|]. split; [exact C|]. split; [exact HR'|]. split; [|split; [|split]].
    - intros m p Hp Hi. apply HR' in Hi as [Hb Hn]. apply HR'. split; [eapply up_next; eassumption|]. intros Hm. apply Hn. eapply needed_above; try eassumption.
      eapply up_next; [exact Hp|constructor].
    - intros m p Hp Hs Hi. pose proof (Hne m Hi) as Hme. apply HR' in Hi as [Hb Hn]. assert (Hpb : below h p (h_entry h)).
      { inversion Hb as [x Hx|? q ? Hq Hb']; subst; [congruence|]. rewrite Hp in Hq. injection Hq as <-. exact Hb'. }
      apply HR'. split; [exact Hpb|]. intros Hpn. apply Hn. eapply needed_next; [exact Hpn|]. apply needs_structure; assumption.
    - intros a i b j Hl Hi. pose proof (Hne a Hi) as Hae. apply HR' in Hi as [Hb Hn]. inversion Hb as [x Hx|? p ? Hp Hpb]; subst; [congruence|].
      assert (Hbb : below h b (h_entry h)).
      { destruct (t_links _ T a i b j p Hl Hp) as [H|[Hblk (q & Hq & H)]]; [eapply up_trans; eassumption|]. inversion Hpb as [x Hx|? q' ? Hq' Hqb]; subst.
        - rewrite (kf_entry _ _ _ KF) in Hblk. discriminate.
        - rewrite Hq in Hq'. injection Hq' as <-. eapply up_trans; eassumption. }
      apply HR'. split; [exact Hbb|]. intros Hbn. apply Hn. eapply needed_next; [exact Hbn|]. eapply needs_input. exact Hl.
    - intros f Hf Hfun Hi. pose proof (Hne f Hi) as Hfe. apply HR' in Hi as [Hb Hn]. inversion Hb as [x Hx|? p ? Hp Hpb]; subst; [congruence|].
      pose proof (t_fun _ T f p Hp Hfun) as ->. apply (up_root h Wh) in Hpb. apply Hn. apply (kf_functions _ _ _ KF); assumption.
  Qed.
End Dce.
