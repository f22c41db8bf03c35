(** The invariant of executions. *)
From Coq Require Import List Bool NArith Arith Lia.
From Verif Require Import BMap PValModel PValSpec PValProofs TypesModel GraphModel GraphSpec GraphProofs OpModel DeadModel InlineModel ReplaceModel FlowModel FlowSpec FlowProofs.
Import ListNotations.
Local Notation wf := PValSpec.wf.

Section Sound.
  Context {W V E F M : Type}.
  Variable veq : forall a b : V, {a = b} + {a <> b}.
  Notation conc := (conc W N unit).
  Notation pv := (pv V N unit).
  Notation hugr := (hugr op M).
  Notation facts := (@facts V).
  Variable meaning : V -> W.
  Variable sem : @semantics W E F.
  Variable ctx : @context V E F.
  Variable h : hugr.
  Variable proto : list (N * nat * pv).
  Notation allows := (allows meaning).
  Notation out_allows := (out_allows meaning).
  Notation in_allows := (in_allows meaning).
  Notation add_fact := (add_fact veq).
  Notation frame := (@frame W).
  Notation stack := (@stack W).
  Notation inputs := (inputs h).

  (** ** A state in which nothing changes any more *)
  Lemma pair_in (a b : N) l : existsb (pair_eqb (a, b)) l = true <-> In (a, b) l.
  Proof.
    rewrite existsb_exists. split.
    - intros ([x y] & Hin & Hx). unfold pair_eqb in Hx. cbn in Hx. apply andb_true_iff in Hx as [H1 H2].
      apply N.eqb_eq in H1. apply N.eqb_eq in H2. subst. assumption.
    - intros H. exists (a, b). split; [assumption|]. unfold pair_eqb. cbn. rewrite !N.eqb_refl. reflexivity.
  Qed.

  Record settled (s : facts) (fs : list fact) : Prop := {
    z_out : forall n p v, In (FOut n p v) fs -> exists w, f_out s n p = Some w /\ le v w;
    z_in : forall n p v, In (FIn n p v) fs -> exists w, f_in s n p = Some w /\ le v w;
    z_row : forall n vs, In (FRow n vs) fs -> exists r, f_row s n = Some r /\ Forall2 le vs r;
    z_case : forall a b, In (FCase a b) fs -> In (a, b) (f_case s);
    z_block : forall a b, In (FBlock a b) fs -> In (a, b) (f_block s);
    z_callee : forall n t, In (FCallee n t) fs -> exists t', f_callee s n = Some t' /\ target_le t t' }.

  Variable s : facts.
  Variable hist : list facts.
  Variable fs : list (@fact V).
  Hypothesis Hi : interpret_wf ctx.
  Hypothesis Hp : proto_wf proto.
  Hypothesis Hrun : run veq ctx h proto (s :: hist).
  Hypothesis Hder : derive ctx h proto s = Some fs.
  Hypothesis Hstab : forall f, In f fs -> exists s', add_fact s f = Some (s', false).

  Lemma s_good : good s.
  Proof. destruct (run_good veq ctx h proto (s :: hist) Hi Hp Hrun s hist eq_refl) as [G _]. exact G. Qed.
  Lemma s_wf : wf_facts s.
  Proof. exact (g_wf _ s_good). Qed.

  Lemma s_settled : settled s fs.
  Proof.
    pose proof s_wf as Ws.
    assert (Wd : forall f, In f fs -> wf_fact f) by (intros f Hf; eapply derive_wf; eassumption).
    constructor.
    - intros n p v Hf. destruct (Hstab _ Hf) as (s' & Ha). specialize (Wd _ Hf). cbn in Ha, Wd.
      destruct (f_out s n p) as [x|] eqn:Ex; [|discriminate]. destruct (PValModel.join veq N.eq_dec v x) as [y c] eqn:Ej. injection Ha as _ ->.
      destruct (join_ok veq x v) as (_ & _ & J3 & J4); [eapply wfo; eassumption|assumption|]. rewrite Ej in J3, J4. cbn in *.
      rewrite (J4 eq_refl) in J3. eauto.
    - intros n p v Hf. destruct (Hstab _ Hf) as (s' & Ha). specialize (Wd _ Hf). cbn in Ha, Wd.
      destruct (f_in s n p) as [x|] eqn:Ex; [|discriminate]. destruct (PValModel.join veq N.eq_dec v x) as [y c] eqn:Ej. injection Ha as _ ->.
      destruct (join_ok veq x v) as (_ & _ & J3 & J4); [eapply wfi; eassumption|assumption|]. rewrite Ej in J3, J4. cbn in *.
      rewrite (J4 eq_refl) in J3. eauto.
    - intros n vs Hf. destruct (Hstab _ Hf) as (s' & Ha). specialize (Wd _ Hf). cbn in Ha, Wd.
      destruct (f_row s n) as [x|] eqn:Ex; [|discriminate]. destruct (row_join veq N.eq_dec vs x) as [[y c]|] eqn:Ej; [|discriminate]. injection Ha as _ ->.
      destruct (row_join_ok veq x vs) with (r := y) (c := false) as (_ & _ & J3 & J4); [eapply wfr; eassumption|assumption|assumption|].
      rewrite (J4 eq_refl) in J3. eauto.
    - intros a b Hf. destruct (Hstab _ Hf) as (s' & Ha). cbn in Ha. apply pair_in. destruct (existsb _ _); [reflexivity|discriminate].
    - intros a b Hf. destruct (Hstab _ Hf) as (s' & Ha). cbn in Ha. apply pair_in. destruct (existsb _ _); [reflexivity|discriminate].
    - intros n t Hf. destruct (Hstab _ Hf) as (s' & Ha). cbn in Ha. destruct (f_callee s n) as [x|]; [|discriminate]. exists x. split; [reflexivity|].
      unfold target_le. destruct x as [|a|], t as [|b|]; cbn in Ha; try discriminate; auto.
      destruct (N.eqb a b) eqn:Eab; [apply N.eqb_eq in Eab; subst; auto|discriminate].
  Qed.

  (** ** The rules *)
  Lemma rule_in r : In r [r_out_bottom h; r_wires h s; r_in_bottom h; r_proto h proto; r_row_bottom h; r_row h s; r_leaf ctx h s; r_dfg h s; r_loop h s;
                          r_cond h s; r_case h s; r_block h s; r_cfg_in h s; r_branch h s; r_call h s; r_callee h s; r_indirect h s; r_indirect_top h s] ->
    exists l, r = Some l /\ incl l fs.
  Proof. intros H. exact (concat_some_in _ _ Hder r H). Qed.
  Ltac rule R := let H := fresh in
    assert (H : exists l, R = Some l /\ incl l fs) by (apply rule_in; cbn [In]; repeat (first [left; reflexivity|right]));
    let l := fresh "l" in let E := fresh "El" in let I := fresh "Il" in destruct H as (l & E & I).

  Lemma derived_out n p v c : In (FOut n p v) fs -> allows v c -> out_allows s n p c.
  Proof. intros Hin Ha. destruct (z_out _ _ s_settled n p v Hin) as (w & Hw & L). exists w. split; [assumption|eapply allows_le; eassumption]. Qed.
  Lemma derived_in n p v c : In (FIn n p v) fs -> allows v c -> in_allows s n p c.
  Proof. intros Hin Ha. destruct (z_in _ _ s_settled n p v Hin) as (w & Hw & L). exists w. split; [assumption|eapply allows_le; eassumption]. Qed.
  Lemma derived_row n vs cs p c : incl (row_facts n vs) fs -> Forall2 allows vs cs -> nth_error cs p = Some c -> out_allows s n p c.
  Proof.
    intros Hin HF Hn. destruct (F2_nth _ _ _ HF p c Hn) as (v & Hv & Ha). eapply derived_out; [|exact Ha]. apply Hin.
    unfold row_facts. apply in_map_iff. exists (p, v). split; [reflexivity|]. apply enumerate_in. assumption.
  Qed.
  Lemma derived_pass n m p c : incl (pass n (in_facts h s m)) fs -> in_allows s m p c -> p < in_count h m -> out_allows s n p c.
  Proof.
    intros Hin (v & Hv & Ha) Hl. eapply derived_out; [|exact Ha]. apply Hin. unfold pass. apply in_map_iff. exists (p, v). split; [reflexivity|].
    apply in_facts_in. auto.
  Qed.

  Hypothesis Wh : GraphSpec.wf h.
  Hypothesis Hb : branches_ok h.
  Hypothesis Hint : interprets meaning sem ctx h.
  Hypothesis Hload : loads_ok meaning sem ctx.

  Lemma linked_in n i m p : single_linked_output h n i = Some (m, p) -> In ((m, p), (n, i)) (h_links h).
  Proof.
    unfold single_linked_output, linked_outputs. destruct (filter _ _) as [|l [|l' r]] eqn:Ef; try discriminate. cbn. intros [= Hl].
    assert (Hin : In l (filter (fun l => ep_eqb (snd l) (n, i)) (h_links h))) by (rewrite Ef; left; reflexivity).
    apply filter_In in Hin as [Hin Heq]. unfold ep_eqb in Heq. cbn in Heq. apply andb_true_iff in Heq as [H1 H2]. apply N.eqb_eq in H1. apply Nat.eqb_eq in H2.
    destruct l as [a [b b2]]. cbn in *. subst. assumption.
  Qed.

  (** Values on outputs reach the inputs that are linked to them. *)
  Lemma wires n i m p c : single_linked_output h n i = Some (m, p) -> i < in_count h n -> out_allows s m p c -> in_allows s n i c.
  Proof.
    intros Hl Hc (v & Hv & Ha). pose proof (linked_in _ _ _ _ Hl) as Hin. destruct (wf_links _ Wh _ Hin) as [_ [Hn Hport]]. cbn in Hn, Hport.
    rule (r_wires h s). eapply derived_in; [|exact Ha]. apply Il. eapply (on_nodes_in _ _ _ _ El); [exact Hn|].
    apply in_flat_map. exists i. split; [apply in_seq; lia|]. rewrite Hl. cbn. rewrite Hv. left. reflexivity.
  Qed.

  (** Rows of inputs. *)
  Lemma rows n cs : In n (h_nodes h) -> dataflow_signature (h_ops h n) <> None -> length cs = in_count h n ->
    (forall i c, nth_error cs i = Some c -> in_allows s n i c) -> exists row, f_row s n = Some row /\ Forall2 allows row cs.
  Proof.
    intros Hn Hd HL Hc.
    assert (Hr : exists row, f_row s n = Some row /\ length row = in_count h n).
    { rule (r_row_bottom (V := V) h). assert (Hin : In (FRow n (repeat Bottom (in_count h n))) fs).
      { apply Il. eapply (on_nodes_in _ _ _ _ El); [exact Hn|]. unfold in_count, sig_of. destruct (dataflow_signature (h_ops h n)) as [g|]; [left; reflexivity|congruence]. }
      destruct (z_row _ _ s_settled _ _ Hin) as (r & Hr & HF). exists r. split; [assumption|]. rewrite <- (F2_len _ _ _ HF). apply repeat_length. }
    destruct Hr as (row & Hr & HLr). exists row. split; [assumption|]. apply nth_in_F2; [congruence|]. intros i v c Hv Hci.
    destruct (Hc i c Hci) as (w & Hw & Ha). rule (r_row h s).
    assert (Hi' : i < in_count h n) by (rewrite <- HL; apply nth_error_Some; congruence).
    assert (Hin : In (FRow n (set_nth i w (repeat Bottom (in_count h n)))) fs).
    { apply Il. eapply (on_nodes_in _ _ _ _ El); [exact Hn|]. apply in_map_iff. exists (i, w). split; [reflexivity|]. apply in_facts_in. auto. }
    destruct (z_row _ _ s_settled _ _ Hin) as (r & Hr' & HF). rewrite Hr in Hr'. injection Hr' as <-.
    destruct (F2_nth _ _ _ HF i v Hv) as (w' & Hw' & L). rewrite set_nth_same in Hw' by (rewrite repeat_length; assumption). injection Hw' as <-.
    eapply allows_le; eassumption.
  Qed.

  (** ** Frames *)
  (** [hid]: the [Input] node whose values are not recorded; [given]: the nodes whose values come from outside. *)
  Record frame_ok (hid given : N -> Prop) (fr : frame) : Prop := {
    k_in : forall n i m p row c, single_linked_output h n i = Some (m, p) -> i < in_count h n -> env fr m = Some row -> nth_error row p = Some c -> in_allows s n i c;
    k_out : forall m p row c, ~ hid m -> env fr m = Some row -> nth_error row p = Some c -> out_allows s m p c;
    k_args : dataflow_signature (h_ops h (start fr)) <> None -> length (args fr) = in_count h (start fr) /\ forall i c, nth_error (args fr) i = Some c -> in_allows s (start fr) i c;
    k_given : given (start fr);
    k_pc : forall n b, pc fr n = Some b -> In (n, b) (f_block s);
    k_case : forall n rows oi ou case i o, h_ops h n = OConditional rows oi ou -> In case (h_kids h n) -> is_case (h_ops h case) = true ->
               get_io h case = Some (i, o) -> env fr i <> None -> ~ given i -> In (n, case) (f_case s) }.

  Lemma io_kids p i o : get_io h p = Some (i, o) -> In i (h_kids h p) /\ In o (h_kids h p) /\ flow_parent (h_ops h p) = true.
  Proof.
    unfold get_io. destruct (flow_parent _); [|discriminate]. destruct (h_kids h p) as [|a [|b r]]; try discriminate. intros [= -> ->]. cbn. auto.
  Qed.
  Lemma kid_node p c : In c (h_kids h p) -> In c (h_nodes h) /\ In p (h_nodes h).
  Proof.
    intros Hc. split.
    - destruct (in_dec N.eq_dec c (h_nodes h)) as [|Hn]; [assumption|]. apply (wf_kids _ Wh) in Hc. destruct (wf_unused _ Wh c Hn). congruence.
    - destruct (in_dec N.eq_dec p (h_nodes h)) as [|Hn]; [assumption|]. destruct (wf_unused _ Wh p Hn) as [_ Hk]. rewrite Hk in Hc. destruct Hc.
  Qed.
  Lemma io_unique p q i o o' : get_io h p = Some (i, o) -> get_io h q = Some (i, o') -> p = q.
  Proof.
    intros H1 H2. apply io_kids in H1 as (H1 & _ & _). apply io_kids in H2 as (H2 & _ & _). apply (wf_kids _ Wh) in H1. apply (wf_kids _ Wh) in H2. congruence.
  Qed.

  Lemma inputs_ok hid given fr n cs : frame_ok hid given fr -> inputs fr n cs ->
    length cs = in_count h n /\ forall i c, nth_error cs i = Some c -> in_allows s n i c.
  Proof.
    intros K. unfold inputs. destruct (N.eqb_spec n (start fr)) as [->|Hne]; cbn [andb].
    - destruct (dataflow_signature (h_ops h (start fr))) eqn:Ed; cbn [is_some].
      + intros ->. apply (k_args _ _ _ K). congruence.
      + intros [HL Ha]. split; [assumption|]. intros i c Hc. destruct (Ha i c Hc) as (m & p & row & Hl & Hm & Hr).
        eapply (k_in _ _ _ K); try eassumption. rewrite <- HL. apply nth_error_Some. congruence.
    - intros [HL Ha]. split; [assumption|]. intros i c Hc. destruct (Ha i c Hc) as (m & p & row & Hl & Hm & Hr).
      eapply (k_in _ _ _ K); try eassumption. rewrite <- HL. apply nth_error_Some. congruence.
  Qed.
  Lemma inputs_row hid given fr n cs : frame_ok hid given fr -> In n (h_nodes h) -> dataflow_signature (h_ops h n) <> None -> inputs fr n cs ->
    exists row, f_row s n = Some row /\ Forall2 allows row cs /\ Forall wf row.
  Proof.
    intros K Hn Hd H. destruct (inputs_ok _ _ _ _ _ K H) as [HL Hc]. destruct (rows n cs Hn Hd HL Hc) as (row & Hr & HF).
    exists row. split; [assumption|]. split; [assumption|]. eapply wfr; [apply s_wf|eassumption].
  Qed.
  Lemma inputs_pass hid given fr n m cs p c : frame_ok hid given fr -> inputs fr m cs -> incl (pass n (in_facts h s m)) fs -> nth_error cs p = Some c -> out_allows s n p c.
  Proof.
    intros K H Hin Hn. destruct (inputs_ok _ _ _ _ _ K H) as [HL Hc]. eapply derived_pass; [exact Hin|apply Hc; exact Hn|]. rewrite <- HL. apply nth_error_Some. congruence.
  Qed.

  Lemma put_ok hid given fr n outs : frame_ok hid given fr -> (forall p c, nth_error outs p = Some c -> out_allows s n p c) ->
    waiting h fr n -> frame_ok hid given (put fr n outs).
  Proof.
    intros K Ho (_ & Hact & Hnone). constructor; cbn.
    - intros n' i m p row c Hl Hc. unfold upd. destruct (N.eqb_spec m n) as [->|Hne].
      + intros [= <-] Hn. eapply wires; [exact Hl|exact Hc|]. apply Ho. exact Hn.
      + intros Hm Hn. eapply (k_in _ _ _ K); eassumption.
    - intros m p row c Hh. unfold upd. destruct (N.eqb_spec m n) as [->|Hne]; [intros [= <-] Hn; apply Ho; assumption|]. intros. eapply (k_out _ _ _ K); eassumption.
    - apply (k_args _ _ _ K).
    - apply (k_given _ _ _ K).
    - apply (k_pc _ _ _ K).
    - intros n' rows oi ou case i o Hop Hk Hc Hio. unfold upd. destruct (N.eqb_spec i n) as [->|Hne].
      + intros _ Hg. destruct Hact as [(q & i & o' & row & Hq & Hio' & He)|Hst]; [|destruct Hg; rewrite Hst; apply (k_given _ _ _ K)].
        exfalso. destruct (io_kids _ _ _ Hio) as (Hkid & _ & _). apply (wf_kids _ Wh) in Hkid.
        unfold get_parent in Hq. destruct (_ && _); [|discriminate]. rewrite Hkid in Hq. injection Hq as <-. rewrite Hio in Hio'. injection Hio' as <- <-. congruence.
      + intros. eapply (k_case _ _ _ K); eassumption.
  Qed.
  Lemma enter_ok hid given fr p i o cs : frame_ok hid given fr -> get_io h p = Some (i, o) -> (forall q c, nth_error cs q = Some c -> out_allows s i q c) ->
    (is_case (h_ops h p) = true -> forall n rows oi ou, h_parent h p = Some n -> h_ops h n = OConditional rows oi ou -> In (n, p) (f_case s)) -> frame_ok hid given (enter h fr p i cs).
  Proof.
    intros K Hio Ho Hcase. constructor; cbn.
    - intros n' j m q row c Hl Hc. destruct (N.eqb_spec m i) as [->|Hne].
      + intros [= <-] Hn. eapply wires; [exact Hl|exact Hc|]. apply Ho. exact Hn.
      + destruct (memN m _); [discriminate|]. intros Hm Hn. eapply (k_in _ _ _ K); eassumption.
    - intros m q row c Hh. destruct (N.eqb_spec m i) as [->|Hne]; [intros [= <-] Hn; apply Ho; assumption|]. destruct (memN m _); [discriminate|]. intros. eapply (k_out _ _ _ K); eassumption.
    - apply (k_args _ _ _ K).
    - apply (k_given _ _ _ K).
    - intros n b. destruct (memN n _); [discriminate|]. apply (k_pc _ _ _ K).
    - intros n' rows oi ou case i' o' Hop Hk Hc Hio'. destruct (N.eqb_spec i' i) as [->|Hne].
      + intros _ _. rewrite (io_unique _ _ _ _ _ Hio Hio') in *. eapply Hcase; [assumption| |eassumption]. apply (wf_kids _ Wh). assumption.
      + destruct (memN i' _); [congruence|]. intros. eapply (k_case _ _ _ K); eassumption.
  Qed.
  Lemma move_ok hid given fr n b : frame_ok hid given fr -> (forall b', b = Some b' -> In (n, b') (f_block s)) -> frame_ok hid given (move fr n b).
  Proof.
    intros K Hblk. constructor; cbn; try apply K. intros m c. unfold upd. destruct (N.eqb_spec m n) as [->|Hne]; [apply Hblk|apply (k_pc _ _ _ K)].
  Qed.
  Lemma new_ok fr f i o cs : get_io h f = Some (i, o) -> is_case (h_ops h f) = false -> dataflow_signature (h_ops h f) = None ->
    (forall q c, nth_error cs q = Some c -> out_allows s i q c) -> fr = new_frame f i cs -> frame_ok (fun _ => False) (fun n => n = f) fr.
  Proof.
    intros Hio Hcase Hd Ho ->. constructor; cbn.
    - intros n' j m q row c Hl Hc. destruct (N.eqb_spec m i) as [->|Hne]; [|discriminate]. intros [= <-] Hn. eapply wires; [exact Hl|exact Hc|]. apply Ho. exact Hn.
    - intros m q row c Hh. destruct (N.eqb_spec m i) as [->|Hne]; [intros [= <-] Hn; apply Ho; assumption|discriminate].
    - congruence.
    - reflexivity.
    - discriminate.
    - intros n' rows oi ou case i' o' Hop Hk Hc Hio'. destruct (N.eqb_spec i' i) as [->|Hne]; [|congruence].
      rewrite (io_unique _ _ _ _ _ Hio Hio') in *. congruence.
  Qed.

  (** ** Leaves *)
  Lemma leaf_ok n ins outs row : In n (h_nodes h) -> f_row s n = Some row -> Forall2 allows row ins -> Forall wf row -> leaf_step sem ctx h n ins outs -> fits h n outs ->
    forall p c, nth_error outs p = Some c -> out_allows s n p c.
  Proof.
    intros Hn Hr HF Wr Hs Hfit p c Hp'. rule (r_leaf ctx h s). destruct (opt_flat_in _ _ _ n El Hn) as (a & Ha & Hia).
    assert (Hfs : incl a fs) by (intros x Hx; apply Il, Hia, Hx). clear El Il Hia. rewrite Hr in Ha. unfold propagate_leaf_op in Ha.
    inversion Hs as [e nm ar g Hop Hk|e nm ar g cs Hop Hk|e nm ar g o' Hop Hk|t vs Hop|t e ck u okk Hop|f ar g e Hop]; subst; rewrite Hop in Ha; cbn in Ha; try rewrite Hk in Ha.
    - injection Ha as <-. eapply (derived_row n [PSum [(0%N, row)]]); [exact Hfs| |exact Hp']. constructor; [|constructor]. econstructor; [left; reflexivity|assumption].
    - inversion HF as [|x ? row' ? Hx HF']; subst. inversion HF'; subst. inversion Wr; subst.
      pose proof (variant_allows meaning x 0%N outs (length (snd g)) ltac:(assumption) Hx) as Hv.
      unfold fits, out_count, sig_of in Hfit. rewrite Hop in Hfit. cbn in Hfit. specialize (Hv Hfit).
      destruct (variant_values x 0%N (length (snd g))) as [[]|[vs|]]; try contradiction. injection Ha as <-.
      eapply derived_row; [exact Hfs|exact Hv|exact Hp'].
    - rewrite (row_no_bottom _ _ _ HF) in Ha. injection Ha as <-. eapply derived_row; [exact Hfs| |exact Hp'].
      pose proof (Hint n ins outs row ltac:(assumption) Hfit HF) as Hx. unfold out_count, sig_of in Hx. rewrite Hop in Hx. exact Hx.
    - injection Ha as <-. eapply (derived_row n [PSum [(N.of_nat t, row)]]); [exact Hfs| |exact Hp']. constructor; [|constructor]. econstructor; [left; reflexivity|assumption].
    - rewrite H in Ha. destruct row; [|discriminate]. rewrite H0 in Ha. injection Ha as <-. eapply (derived_row n [_]); [exact Hfs| |exact Hp'].
      constructor; [|constructor]. apply const_allows. exact Hload.
    - rewrite H in Ha. destruct row; [|discriminate]. injection Ha as <-. eapply (derived_row n [LF (fst e) tt]); [exact Hfs| |exact Hp']. constructor; [|constructor]. constructor.
  Qed.

  Lemma unpacked_ok d row k cs rest len l p c : unpacked d row k len = Some l -> incl l fs -> Forall wf row -> Forall2 allows row (CSum (N.of_nat k) cs :: rest) ->
    length cs = len -> nth_error (cs ++ rest) p = Some c -> out_allows s d p c.
  Proof.
    intros Hu Hin Wr HF HL Hn. destruct (unpack_allows meaning row (N.of_nat k) cs rest len Wr HF HL) as (vs & Hv & HF').
    unfold unpacked in Hu. rewrite Hv in Hu. injection Hu as <-. eapply derived_row; eassumption.
  Qed.


  Lemma kid_of n k case : nth_error (h_kids h n) k = Some case -> In case (h_kids h n) /\ h_parent h case = Some n.
  Proof. intros H. apply nth_error_In in H. split; [assumption|]. apply (wf_kids _ Wh). assumption. Qed.
  Lemma case_known hid given fr n rows oi ou k case cs rest : frame_ok hid given fr -> In n (h_nodes h) -> h_ops h n = OConditional rows oi ou ->
    inputs fr n (CSum (N.of_nat k) cs :: rest) -> nth_error (h_kids h n) k = Some case -> is_case (h_ops h case) = true -> In (n, case) (f_case s).
  Proof.
    intros K Hn Hop Hin Hk Hc. destruct (inputs_ok _ _ _ _ _ K Hin) as [_ Ha]. destruct (Ha 0 _ eq_refl) as (v & Hv & Hal).
    rule (r_case h s). apply (z_case _ _ s_settled). apply Il. eapply (on_nodes_in _ _ _ _ El); [exact Hn|]. cbn beta. rewrite Hop.
    apply in_flat_map. exists (k, case). split; [apply enumerate_in; exact Hk|]. rewrite Hv, Hc.
    rewrite (supports_allows meaning v _ cs); [left; reflexivity| |exact Hal]. eapply wfi; [apply s_wf|exact Hv].
  Qed.

  Lemma succ_nth b k t j : is_block (h_ops h b) = true -> In (t, j) (linked_inputs h b k) -> nth_error (successors h b) k = Some t.
  Proof.
    intros Hblk Hin. assert (Hk : In b (h_nodes h) /\ k < h_out h b).
    { unfold linked_inputs in Hin. apply in_map_iff in Hin as (l & Hl & Hf). apply filter_In in Hf as [Hf Heq]. destruct (wf_links _ Wh _ Hf) as [[Hbn Ho] _].
      unfold ep_eqb in Heq. apply andb_true_iff in Heq as [H1 H2]. apply N.eqb_eq in H1. apply Nat.eqb_eq in H2. cbn in H1, H2. rewrite <- H1. rewrite H2 in Ho. split; [exact Hbn|exact Ho]. }
    destruct Hk as [Hbn Hk].
    unfold successors. assert (Hg : forall len lo q, lo + len <= h_out h b -> q < len ->
      nth_error (flat_map (fun p => map fst (linked_inputs h b p)) (seq lo len)) q = hd_error (map fst (linked_inputs h b (lo + q)))).
    { induction len as [|len IH]; intros lo q Hle Hq; [lia|]. cbn. pose proof (Hb b Hbn Hblk lo ltac:(lia)) as H1.
      destruct (linked_inputs h b lo) as [|x [|y r]] eqn:El; try discriminate. cbn. destruct q as [|q]; cbn.
      - rewrite Nat.add_0_r, El. reflexivity.
      - rewrite IH by lia. do 2 f_equal. f_equal. lia. }
    rewrite (Hg (h_out h b) 0 k) by lia. cbn [Nat.add]. pose proof (Hb b Hbn Hblk k Hk) as H1. destruct (linked_inputs h b k) as [|x [|y r]]; try discriminate.
    destruct Hin as [->|[]]. reflexivity.
  Qed.
  Lemma block_known hid given fr n b i o k cs rest t j : frame_ok hid given fr -> In n (h_nodes h) -> is_cfg (h_ops h n) = true -> pc fr n = Some b -> is_block (h_ops h b) = true ->
    get_io h b = Some (i, o) -> inputs fr o (CSum (N.of_nat k) cs :: rest) -> In (t, j) (linked_inputs h b k) -> In (n, t) (f_block s).
  Proof.
    intros K Hn Hop Hpc Hblk Hio Hin Hl. destruct (inputs_ok _ _ _ _ _ K Hin) as [_ Ha]. destruct (Ha 0 _ eq_refl) as (v & Hv & Hal).
    rule (r_block h s). apply (z_block _ _ s_settled). apply Il. eapply (on_nodes_in _ _ _ _ El); [exact Hn|]. cbn beta. rewrite Hop.
    apply in_or_app. right. apply in_flat_map. exists (n, b). split; [apply (k_pc _ _ _ K); exact Hpc|]. cbn [fst snd]. rewrite N.eqb_refl. unfold output_child. rewrite Hio. cbn [option_map snd].
    rewrite Hv. apply in_flat_map. exists (k, t). split; [apply enumerate_in; eapply succ_nth; eassumption|]. cbn [fst snd].
    rewrite (supports_allows meaning v _ cs); [left; reflexivity| |exact Hal]. eapply wfi; [apply s_wf|exact Hv].
  Qed.
  Lemma branch_known hid given fr n b ins oo rows i o k cs rest t j r d p c : frame_ok hid given fr -> In n (h_nodes h) -> is_cfg (h_ops h n) = true -> pc fr n = Some b ->
    h_ops h b = OBlock ins oo rows -> get_io h b = Some (i, o) -> In o (h_nodes h) -> dataflow_signature (h_ops h o) <> None -> inputs fr o (CSum (N.of_nat k) cs :: rest) -> In (t, j) (linked_inputs h b k) ->
    nth_error rows k = Some r -> length cs = length r -> In d (dests h n t) -> nth_error (cs ++ rest) p = Some c -> out_allows s d p c.
  Proof.
    intros K Hn Hop Hpc Hblk Hio Ho Hd Hin Hl Hr HL Hdest Hc. destruct (inputs_row _ _ _ _ _ K Ho Hd Hin) as (row & Hrow & HF & Wr).
    rule (r_branch h s). destruct (opt_flat_in _ _ _ (n, b) El (k_pc _ _ _ K _ _ Hpc)) as (a & Ha & Hia). cbn beta iota in Ha. rewrite Hblk in Ha.
    unfold output_child in Ha. rewrite Hio in Ha. cbn [option_map snd] in Ha.
    destruct (opt_flat_in _ _ _ (k, t) Ha) as (a2 & Ha2 & Hia2); [apply enumerate_in; eapply succ_nth; [rewrite Hblk; reflexivity|exact Hl]|].
    rewrite Hop in Ha2. destruct (opt_flat_in _ _ _ d Ha2 Hdest) as (a3 & Ha3 & Hia3). rewrite Hrow, Hr in Ha3.
    eapply unpacked_ok; [exact Ha3| |exact Wr|exact HF|exact HL|exact Hc]. intros x Hx. apply Il, Hia, Hia2, Hia3, Hx.
  Qed.

  Lemma sum_sig o (c : conc) cs : In o (h_nodes h) -> length (c :: cs) = in_count h o -> dataflow_signature (h_ops h o) <> None.
  Proof. unfold in_count, sig_of. intros _ HL. destruct (dataflow_signature (h_ops h o)); [discriminate|]. cbn in HL. discriminate. Qed.

  Lemma local_ok hid given fr fr' : frame_ok hid given fr -> local_step sem ctx h fr fr' -> frame_ok hid given fr'.
  Proof.
    intros K Hs.
    inversion Hs as [n ins outs Hw Hin Hl Hf
      |n g i o ins Hw Hop Hio Henv Hin Hf|n g i o outs Hw Hop Hio Henv Hin Hf
      |n ji jo r i o ins Hw Hop Hio Henv Hin Hf|n ji jo r i o cs rest Hw Hop Hio Henv Hin HL Hf|n ji jo r i o cs rest Hw Hop Hio Henv Hin HL Hf
      |n rows oi ou k case i o cs rest r Hw Hop Hin Hk Hc Hio Henv Hr HL Hf|n rows oi ou k case i o cs rest outs Hw Hop Hin Hk Hc Hio Henv Hino Hf
      |n g e i o ins Hw Hop Hpc Hk Hio Hin Hf|n g b ins oo rows i o k cs rest r t j i' o' Hw Hop Hpc Hblk Hio Hin Hr HL Hl Hk Ht Hio' Hf
      |n g b ins oo rows i o k cs rest r t j Hw Hop Hpc Hblk Hio Hin Hr HL Hl Hk Hf|n g w ins outs Hw Hop Hin Hcv Hf]; subst fr'; pose proof Hw as (Hn & _ & _).
    - apply put_ok; [exact K| |exact Hw]. assert (Hd : dataflow_signature (h_ops h n) <> None) by (inversion Hl as [? ? ? ? Ho|? ? ? ? ? Ho|? ? ? ? ? Ho|? ? Ho|? ? ? ? ? Ho|? ? ? ? Ho]; rewrite Ho; discriminate).
      destruct (inputs_row _ _ _ _ _ K Hn Hd Hin) as (row & Hr & HF & Wr). eapply leaf_ok; eassumption.
    - eapply enter_ok; [exact K|exact Hio| |rewrite Hop; discriminate]. intros p c Hc. eapply inputs_pass; [exact K|exact Hin| |exact Hc].
      rule (r_dfg h s). intros x Hx. apply Il. eapply (on_nodes_in _ _ _ _ El); [exact Hn|]. cbn beta. rewrite Hop, Hio. cbn. apply in_or_app. auto.
    - apply put_ok; [exact K| |exact Hw]. intros p c Hc. eapply inputs_pass; [exact K|exact Hin| |exact Hc].
      rule (r_dfg h s). intros x Hx. apply Il. eapply (on_nodes_in _ _ _ _ El); [exact Hn|]. cbn beta. rewrite Hop, Hio. cbn. apply in_or_app. auto.
    - eapply enter_ok; [exact K|exact Hio| |rewrite Hop; discriminate]. intros p c Hc. eapply inputs_pass; [exact K|exact Hin| |exact Hc].
      rule (r_loop h s). destruct (opt_flat_in _ _ _ n El Hn) as (a & Ha & Hia). rewrite Hop, Hio in Ha. intros x Hx. apply Il, Hia.
      destruct (f_row s o); [|injection Ha as <-; exact Hx]. destruct (unpacked i _ _ _); [|discriminate]. destruct (unpacked n _ _ _); [|discriminate]. injection Ha as <-. apply in_or_app. auto.
    - eapply enter_ok; [exact K|exact Hio| |rewrite Hop; discriminate]. intros p c Hc.
      destruct (kid_node _ _ (proj1 (proj2 (io_kids _ _ _ Hio)))) as [Ho _]. destruct (inputs_ok _ _ _ _ _ K Hin) as [HLo _].
      destruct (inputs_row _ _ _ _ _ K Ho (sum_sig _ _ _ Ho HLo) Hin) as (row & Hrow & HF & Wr).
      rule (r_loop h s). destruct (opt_flat_in _ _ _ n El Hn) as (a & Ha & Hia). rewrite Hop, Hio, Hrow in Ha.
      destruct (unpacked i row 0 _) as [x|] eqn:Ex; [|discriminate]. destruct (unpacked n row 1 _) as [y|] eqn:Ey; [|discriminate]. injection Ha as <-.
      eapply (unpacked_ok i row 0); [exact Ex| |exact Wr|exact HF|exact HL|exact Hc]. intros z Hz. apply Il, Hia. apply in_or_app. right. apply in_or_app. auto.
    - apply put_ok; [exact K| |exact Hw]. intros p c Hc.
      destruct (kid_node _ _ (proj1 (proj2 (io_kids _ _ _ Hio)))) as [Ho _]. destruct (inputs_ok _ _ _ _ _ K Hin) as [HLo _].
      destruct (inputs_row _ _ _ _ _ K Ho (sum_sig _ _ _ Ho HLo) Hin) as (row & Hrow & HF & Wr).
      rule (r_loop h s). destruct (opt_flat_in _ _ _ n El Hn) as (a & Ha & Hia). rewrite Hop, Hio, Hrow in Ha.
      destruct (unpacked i row 0 _) as [x|] eqn:Ex; [|discriminate]. destruct (unpacked n row 1 _) as [y|] eqn:Ey; [|discriminate]. injection Ha as <-.
      eapply (unpacked_ok n row 1); [exact Ey| |exact Wr|exact HF|exact HL|exact Hc]. intros z Hz. apply Il, Hia. apply in_or_app. right. apply in_or_app. auto.
    - destruct (kid_of _ _ _ Hk) as [Hkid Hpar].
      eapply enter_ok; [exact K|exact Hio| |]; [|intros _ n' ? ? ? Hn' _; rewrite Hpar in Hn'; injection Hn' as <-; eapply case_known; eassumption].
      intros p c Hp'. assert (Hd : dataflow_signature (h_ops h n) <> None) by (rewrite Hop; discriminate).
      destruct (inputs_row _ _ _ _ _ K Hn Hd Hin) as (row & Hrow & HF & Wr).
      rule (r_cond h s). destruct (opt_flat_in _ _ _ n El Hn) as (a & Ha & Hia). rewrite Hop in Ha.
      destruct (opt_flat_in _ _ _ (k, case) Ha) as (a2 & Ha2 & Hia2); [apply enumerate_in; exact Hk|]. cbn beta iota in Ha2. rewrite Hc, Hio, Hrow, Hr in Ha2.
      destruct (unpacked i row k (length r)) as [x|] eqn:Ex; [|discriminate]. cbn in Ha2. injection Ha2 as <-.
      eapply (unpacked_ok i row k); [exact Ex| |exact Wr|exact HF|exact HL|exact Hp']. intros z Hz. apply Il, Hia, Hia2. apply in_or_app. auto.
    - apply put_ok; [exact K| |exact Hw]. intros p c Hp'. eapply inputs_pass; [exact K|exact Hino| |exact Hp'].
      pose proof (case_known _ _ _ _ _ _ _ _ _ _ _ K Hn Hop Hin Hk Hc) as Hcase.
      rule (r_cond h s). destruct (opt_flat_in _ _ _ n El Hn) as (a & Ha & Hia). rewrite Hop in Ha.
      destruct (opt_flat_in _ _ _ (k, case) Ha) as (a2 & Ha2 & Hia2); [apply enumerate_in; exact Hk|]. cbn beta iota in Ha2. rewrite Hc, Hio in Ha2.
      rewrite (proj2 (pair_in _ _ _) Hcase) in Ha2. destruct (match f_row s n with Some row => _ | None => _ end) as [x|]; [|discriminate]. cbn in Ha2. injection Ha2 as <-.
      intros z Hz. apply Il, Hia, Hia2. apply in_or_app. auto.
    - assert (Hent : In (n, e) (f_block s)).
      { rule (r_block h s). apply (z_block _ _ s_settled). apply Il. eapply (on_nodes_in _ _ _ _ El); [exact Hn|]. cbn beta. rewrite Hop. cbn [is_cfg].
        destruct (h_kids h n); [discriminate|]. injection Hk as ->. left. reflexivity. }
      apply move_ok; [|intros b' [= <-]; exact Hent].
      assert (Hout : forall p c, nth_error ins p = Some c -> out_allows s i p c).
      { intros p c Hc. eapply inputs_pass; [exact K|exact Hin| |exact Hc]. rule (r_cfg_in h s). intros x Hx. apply Il. eapply (on_nodes_in _ _ _ _ El); [exact Hn|]. cbn beta. rewrite Hop. cbn [is_cfg].
        destruct (h_kids h n); [discriminate|]. injection Hk as ->. unfold input_child. rewrite Hio. exact Hx. }
      eapply enter_ok; [exact K|exact Hio|exact Hout|]. intros Hcase n' ? ? ? Hn' Hcond. destruct (h_kids h n) eqn:Ek; [discriminate|]. injection Hk as ->.
      assert (Hpar : h_parent h e = Some n) by (apply (wf_kids _ Wh); rewrite Ek; left; reflexivity). rewrite Hpar in Hn'. injection Hn' as <-.
      congruence.
    - destruct (kid_node _ _ (proj1 (proj2 (io_kids _ _ _ Hio)))) as [Ho _]. destruct (inputs_ok _ _ _ _ _ K Hin) as [HLo _].
      assert (Hcfg : is_cfg (h_ops h n) = true) by (rewrite Hop; reflexivity). assert (Hbb : is_block (h_ops h b) = true) by (rewrite Hblk; reflexivity).
      apply move_ok; [|intros b' [= <-]; eapply block_known; eassumption].
      eapply enter_ok; [exact K|exact Hio'| |intros Hcase; destruct (h_ops h t); discriminate]. intros p c Hc. eapply (branch_known hid given fr n b ins oo rows i o k cs rest t j r); try eassumption; [eapply sum_sig; eassumption|].
      unfold dests. apply in_or_app. right. rewrite (proj2 (memN_iff _ _) Hk), Ht. cbn. unfold input_child. rewrite Hio'. left. reflexivity.
    - destruct (kid_node _ _ (proj1 (proj2 (io_kids _ _ _ Hio)))) as [Ho _]. destruct (inputs_ok _ _ _ _ _ K Hin) as [HLo _].
      assert (Hcfg : is_cfg (h_ops h n) = true) by (rewrite Hop; reflexivity).
      apply move_ok; [|discriminate]. apply put_ok; [exact K| |exact Hw]. intros p c Hc. eapply (branch_known hid given fr n b ins oo rows i o k cs rest t j r); try eassumption; [eapply sum_sig; eassumption|].
      unfold dests. apply in_or_app. left. rewrite Hk, N.eqb_refl. left. reflexivity.
    - apply put_ok; [exact K| |exact Hw]. intros p c Hc. destruct (inputs_ok _ _ _ _ _ K Hin) as [_ Ha]. destruct (Ha 0 _ eq_refl) as (v & Hv & Hal).
      rule (r_indirect_top h s). eapply derived_out; [|constructor]. apply Il. eapply (on_nodes_in _ _ _ _ El); [exact Hn|]. cbn beta. rewrite Hop, Hv.
      assert (Hin2 : In (FOut n p Top) (map (fun p => FOut n p (Top : pv)) (seq 0 (length (snd g))))).
      { apply in_map_iff. exists p. split; [reflexivity|]. apply in_seq. unfold fits, out_count, sig_of in Hf. rewrite Hop in Hf. cbn in Hf. rewrite <- Hf. split; [lia|]. apply nth_error_Some. congruence. }
      inversion Hal; subst; exact Hin2.
  Qed.

  Lemma local_start fr fr' : local_step sem ctx h fr fr' -> start fr' = start fr.
  Proof. intros H. inversion H; reflexivity. Qed.

  (** ** Stacks *)
  Variable e : N.
  Variable outer : N -> option (list conc).
  Definition from_outside (n : N) : Prop := n = e \/ first_input h e n \/ outer n <> None.
  Definition ok (fr : frame) (r : option N) : Prop :=
    match r with
    | None => start fr = e /\ frame_ok (first_input h e) from_outside fr
    | Some _ => frame_ok (fun _ => False) (fun n => n = start fr) fr
    end.
  Definition called (n f : N) : Prop :=
    (is_call (h_ops h n) = true /\ static_source h n = Some f) \/ (is_call_indirect (h_ops h n) = true /\ f_callee s n = Some (TNode f)).
  Inductive trusted : stack -> Prop :=
  | t_base fr : ok fr None -> trusted [(fr, None)]
  | t_call fr n fr' r st : trusted ((fr', r) :: st) -> ok fr (Some n) -> waiting h fr' n -> called n (start fr) -> trusted ((fr, Some n) :: (fr', r) :: st).
  Definition good_stack (st : stack) : Prop :=
    trusted st \/
    exists wild fr n fr' r known, st = wild ++ (fr, Some n) :: (fr', r) :: known /\ trusted ((fr', r) :: known) /\ waiting h fr' n /\ unresolved h s n.

  Lemma trusted_top fr r st : trusted ((fr, r) :: st) -> ok fr r.
  Proof. intros H. inversion H; subst; assumption. Qed.
  Lemma trusted_replace fr r st fr' : trusted ((fr, r) :: st) -> start fr' = start fr ->
    (forall hid given, frame_ok hid given fr -> frame_ok hid given fr') -> trusted ((fr', r) :: st).
  Proof.
    intros H Hst Hk. inversion H as [f [Hs Hok]|f n f' r' st' Ht Hok Hw Hc]; subst.
    - constructor. split; [congruence|]. apply Hk. assumption.
    - constructor; [assumption| |assumption|rewrite Hst; assumption]. cbn in *. rewrite Hst. apply Hk. assumption.
  Qed.
  Lemma ok_frame fr r : ok fr r -> exists hid given, frame_ok hid given fr.
  Proof. destruct r; cbn; [eauto|]. intros [_ H]. eauto. Qed.

  Lemma return_ok fr n fr' r st i o outs : trusted ((fr, Some n) :: (fr', r) :: st) -> get_io h (start fr) = Some (i, o) -> inputs fr o outs ->
    trusted ((put fr' n outs, r) :: st).
  Proof.
    intros H Hio Hin. inversion H as [|f m f' r' st' Ht Hok Hw Hc]; subst. eapply trusted_replace; [exact Ht|reflexivity|]. intros hid given K. apply put_ok; [exact K| |exact Hw].
    pose proof Hw as (Hn & _ & _). intros p c Hc'. eapply inputs_pass; [exact Hok|exact Hin| |exact Hc'].
    destruct Hc as [[Hop Hsrc]|[Hop Hsrc]].
    - rule (r_call h s). intros x Hx. apply Il. eapply (on_nodes_in _ _ _ _ El); [exact Hn|]. cbn beta. rewrite Hop, Hsrc, Hio. apply in_or_app. auto.
    - rule (r_indirect h s). intros x Hx. apply Il. eapply (on_nodes_in _ _ _ _ El); [exact Hn|]. cbn beta. rewrite Hsrc, Hio. apply in_or_app. auto.
  Qed.
  Lemma unresolved_top fr n outs : waiting h fr n -> unresolved h s n -> fits h n outs -> forall hid given, frame_ok hid given fr -> frame_ok hid given (put fr n outs).
  Proof.
    intros Hw (g & Hop & Hv) Hf hid given K. apply put_ok; [exact K| |exact Hw]. pose proof Hw as (Hn & _ & _). intros p c Hc.
    rule (r_indirect_top h s). eapply derived_out; [|constructor]. apply Il. eapply (on_nodes_in _ _ _ _ El); [exact Hn|]. cbn beta. rewrite Hop, Hv.
    apply in_map_iff. exists p. split; [reflexivity|]. apply in_seq. unfold fits, out_count, sig_of in Hf. rewrite Hop in Hf. cbn in Hf. rewrite <- Hf. split; [lia|]. apply nth_error_Some. congruence.
  Qed.

  Lemma call_ok fr r st n f nm g pub i o ins : trusted ((fr, r) :: st) -> waiting h fr n -> calls h fr n f ins -> h_ops h f = OFuncDefn nm g pub -> get_io h f = Some (i, o) ->
    good_stack ((new_frame f i ins, Some n) :: (fr, r) :: st).
  Proof.
    intros Ht Hw Hc Hfun Hio. destruct (ok_frame _ _ (trusted_top _ _ _ Ht)) as (hid & given & K). pose proof Hw as (Hn & _ & _).
    inversion Hc as [f' g' a ins' callee Hop Hin Hsrc|g' ins' callee Hop Hin]; subst.
    - left. constructor; [exact Ht| |exact Hw|left; rewrite Hop; auto]. eapply (new_ok _ f i o ins); [exact Hio|rewrite Hfun; reflexivity|rewrite Hfun; reflexivity| |reflexivity].
      intros p c Hp'. eapply inputs_pass; [exact K|exact Hin| |exact Hp']. rule (r_call h s). intros x Hx. apply Il. eapply (on_nodes_in _ _ _ _ El); [exact Hn|]. cbn beta. rewrite Hop, Hsrc, Hio. apply in_or_app. auto.
    - destruct (inputs_ok _ _ _ _ _ K Hin) as [HL Ha]. destruct (Ha 0 _ eq_refl) as (v & Hv & Hal).
      inversion Hal as [c|v'|m u|]; subst.
      + right. exists [], (new_frame f i ins), n, fr, r, st. split; [reflexivity|]. split; [exact Ht|]. split; [exact Hw|]. exists g'. auto.
      + assert (Hcallee : f_callee s n = Some (TNode f)).
        { rule (r_callee h s). assert (Hf' : In (FCallee n (TNode f)) fs). { apply Il. eapply (on_nodes_in _ _ _ _ El); [exact Hn|]. cbn beta. rewrite Hop, Hv. left. reflexivity. }
          destruct (z_callee _ _ s_settled _ _ Hf') as (t' & Ht' & L). destruct (g_callee _ s_good _ _ Ht') as (v2 & Hv2 & L2). rewrite Hv in Hv2. injection Hv2 as <-. cbn in L2.
          unfold target_le in *. destruct L as [L|[L|L]]; [discriminate|congruence|]. subst t'. destruct L2 as [L2|[L2|L2]]; discriminate. }
        left. constructor; [exact Ht| |exact Hw|right; rewrite Hop; auto]. eapply (new_ok _ f i o ins); [exact Hio|rewrite Hfun; reflexivity|rewrite Hfun; reflexivity| |reflexivity].
        intros p c Hp'. destruct (Ha (S p) c Hp') as (w & Hw' & Haw). rule (r_indirect h s). eapply derived_out; [|exact Haw]. apply Il. eapply (on_nodes_in _ _ _ _ El); [exact Hn|]. cbn beta.
        rewrite Hcallee, Hio. apply in_or_app. left. apply in_flat_map. exists (S p, w). split; [|left; reflexivity]. apply in_facts_in. split; [exact Hw'|]. rewrite <- HL. apply nth_error_Some. cbn. congruence.
  Qed.

  Lemma step_ok st st' : good_stack st -> step sem ctx h st st' -> good_stack st'.
  Proof.
    intros Hg Hs. destruct Hg as [Ht|(wild & fr1 & n1 & fr2 & r2 & known & -> & Ht & Hw & Hun)].
    - inversion Hs as [fr fr' r st0 Hl|fr r st0 n f nm g pub i o ins Hw Hc Hfun Hio Hf|fr n fr' r st0 i o outs Hio Hin Hf]; subst.
      + left. eapply trusted_replace; [exact Ht|eapply local_start; exact Hl|]. intros hid given K. eapply local_ok; eassumption.
      + eapply call_ok; eassumption.
      + left. eapply return_ok; eassumption.
    - destruct wild as [|[x rx] wild].
      + inversion Hs as [fr fr' r st0 Hl|fr r st0 n f nm g pub i o ins Hw' Hc Hfun Hio Hf|fr n fr' r st0 i o outs Hio Hin Hf]; subst.
        * right. exists [], fr', n1, fr2, r2, known. auto.
        * right. eexists [_], fr1, n1, fr2, r2, known. cbn. auto.
        * left. eapply trusted_replace; [exact Ht|reflexivity|]. eapply unresolved_top; eassumption.
      + cbn in Hs. inversion Hs as [fr fr' r st0 Hl|fr r st0 n f nm g pub i o ins Hw' Hc Hfun Hio Hf|fr n fr' r st0 i o outs Hio Hin Hf]; subst.
        * right. exists ((fr', rx) :: wild), fr1, n1, fr2, r2, known. cbn. auto.
        * right. eexists (_ :: (x, rx) :: wild), fr1, n1, fr2, r2, known. cbn. auto.
        * right. destruct wild as [|[y ry] wild]; cbn in *.
          -- match goal with H : (fr', r) :: st0 = _ |- _ => injection H as -> -> -> end. exists [], (put fr1 n outs), n1, fr2, r2, known. cbn. auto.
          -- match goal with H : (fr', r) :: st0 = _ |- _ => injection H as -> -> -> end. exists ((put y n outs, ry) :: wild), fr1, n1, fr2, r2, known. cbn. auto.
  Qed.

  Lemma trusted_all st : trusted st -> forall above fr r below, st = above ++ (fr, r) :: below -> ok fr r.
  Proof.
    intros H. induction H as [f Hok|f n f' r' st Ht IH Hok Hw Hc]; intros above fr r below Heq.
    - destruct above as [|x above]; [inversion Heq; subst; exact Hok|]. destruct above; discriminate.
    - destruct above as [|x above]; [inversion Heq; subst; exact Hok|]. injection Heq as _ Heq. eapply IH. exact Heq.
  Qed.
  Lemma good_all st : good_stack st -> forall above fr r below, st = above ++ (fr, r) :: below ->
    (forall x n, In (x, Some n) ((fr, r) :: below) -> ~ unresolved h s n) -> ok fr r.
  Proof.
    intros [Ht|(wild & fr1 & n1 & fr2 & r2 & known & Hst & Ht & Hw & Hun)]; [intros above fr r below Heq _; eapply trusted_all; eassumption|].
    subst st. induction wild as [|x wild IH]; intros above fr r below Heq Hno.
    - destruct above as [|y above].
      + exfalso. cbn in Heq. injection Heq as <- <- <-. eapply Hno; [left; reflexivity|exact Hun].
      + cbn in Heq. injection Heq as _ Heq. eapply trusted_all; eassumption.
    - destruct above as [|y above].
      + exfalso. cbn in Heq. injection Heq as -> <-. eapply (Hno fr1 n1); [|exact Hun]. right. apply in_or_app. right. left. reflexivity.
      + cbn in Heq. injection Heq as _ Heq. eapply IH; eassumption.
  Qed.

  (** ** The start *)
  Lemma proto_in n p v c : In (n, p, v) proto -> In n (h_nodes h) -> p < in_count h n -> allows v c -> in_allows s n p c.
  Proof.
    intros Hin Hn Hl Ha. rule (r_proto h proto). eapply derived_in; [|exact Ha]. apply Il. injection El as <-. apply in_flat_map. exists (n, p, v). split; [exact Hin|]. cbn beta iota.
    replace (contains h n) with true by (symmetry; apply memN_iff; exact Hn). unfold in_count, sig_of in Hl. destruct (dataflow_signature (h_ops h n)); [|cbn in Hl; lia].
    rewrite (proj2 (Nat.ltb_lt _ _) Hl). left. reflexivity.
  Qed.
  Hypothesis He : In e (h_nodes h).
  Hypothesis Hout : forall m row p c, outer m = Some row -> nth_error row p = Some c -> out_allows s m p c.

  Lemma linked_of n i m p : single_linked_output h n i = Some (m, p) -> In (n, i) (linked_inputs h m p).
  Proof.
    intros H. apply linked_in in H. unfold linked_inputs. apply in_map_iff. exists ((m, p), (n, i)). split; [reflexivity|]. apply filter_In. split; [exact H|].
    unfold ep_eqb. cbn. rewrite N.eqb_refl, Nat.eqb_refl. reflexivity.
  Qed.

  Lemma starts_ok cs fr : starts h e cs outer fr -> feeds meaning h proto e cs -> good_stack [(fr, None)].
  Proof.
    intros (Hst & Hargs & Hpc & Hs) Hfeed. left. constructor. cbn. split; [exact Hst|].
    assert (HD : forall m row p c n i, outer m = Some row -> nth_error row p = Some c -> single_linked_output h n i = Some (m, p) -> i < in_count h n -> in_allows s n i c)
      by (intros; eapply wires; [eassumption|eassumption|eapply Hout; eassumption]).
    assert (Hflow : forall i o, get_io h e = Some (i, o) -> (forall n, env fr n = if N.eqb n i then Some cs else outer n) -> first_input h e i ->
      (forall p c, nth_error cs p = Some c -> forall n j, In (n, j) (linked_inputs h i p) -> exists v, In (n, j, v) proto /\ allows v c) ->
      dataflow_signature (h_ops h e) = None -> frame_ok (first_input h e) from_outside fr).
    { intros i o Hio Henv Hfi Hfd Hd. constructor.
      - intros n j m p row c Hl Hlt Hm Hc. rewrite Henv in Hm. destruct (N.eqb_spec m i) as [Heq|Hne].
        + subst m. injection Hm as <-. destruct (Hfd p c Hc n j (linked_of _ _ _ _ Hl)) as (v & Hv & Ha).
          eapply proto_in; [exact Hv| |exact Hlt|exact Ha]. destruct (wf_links _ Wh _ (linked_in _ _ _ _ Hl)) as [_ [Hn _]]. exact Hn.
        + eapply HD; eassumption.
      - intros m p row c Hh Hm Hc. rewrite Henv in Hm. destruct (N.eqb_spec m i) as [Heq|Hne]; [subst m; contradiction|]. eapply Hout; eassumption.
      - rewrite Hst, Hd. congruence.
      - left. exact Hst.
      - intros n b Hn. rewrite Hpc in Hn. discriminate.
      - intros n rows oi ou case i' o' _ _ _ _ Hne Hg. exfalso. apply Hg. right. rewrite Henv in Hne. destruct (N.eqb_spec i' i) as [Heq|]; [left; subst; assumption|right; assumption]. }
    assert (Hcont : length cs = in_count h e -> (forall n, env fr n = outer n) -> (forall p c, nth_error cs p = Some c -> exists v, In (e, p, v) proto /\ allows v c) ->
      frame_ok (first_input h e) from_outside fr).
    { intros HL Henv Hfd. constructor.
      - intros n j m p row c Hl Hlt Hm Hc. rewrite Henv in Hm. eapply HD; eassumption.
      - intros m p row c Hh Hm Hc. rewrite Henv in Hm. eapply Hout; eassumption.
      - intros _. rewrite Hst, Hargs. split; [exact HL|]. intros i c Hc. destruct (Hfd i c Hc) as (v & Hv & Ha). eapply proto_in; [exact Hv|exact He| |exact Ha]. rewrite <- HL. apply nth_error_Some. congruence.
      - left. exact Hst.
      - intros n b Hn. rewrite Hpc in Hn. discriminate.
      - intros n rows oi ou case i' o' _ _ _ _ Hne Hg. exfalso. apply Hg. right. right. rewrite Henv in Hne. assumption. }
    unfold feeds in Hfeed.
    destruct (h_ops h e) eqn:Hop; try contradiction;
      first [destruct Hs as (i & o & Hio & _ & Henv); eapply Hflow; [exact Hio|exact Henv|unfold first_input; rewrite Hop; eauto| |reflexivity];
             intros p c Hc n j Hin; eapply (Hfeed p c Hc i); [unfold first_input; rewrite Hop; eauto|exact Hin]
            |destruct Hs as (HL & Henv); apply Hcont; assumption].
  Qed.

  Lemma steps_ok st st' : steps sem ctx h st st' -> good_stack st -> good_stack st'.
  Proof. induction 1 as [|a b c H IH Hs]; intros Hg; [assumption|]. eapply step_ok; [apply IH; exact Hg|exact Hs]. Qed.
End Sound.

(** ** Initial values *)
Section Start.
  Context {W V M : Type}.
  Notation pv := (pv V N unit).
  Variable meaning : V -> W.
  Variable h : hugr op M.

  Lemma set_nth_nth {A} (l : list A) : forall i x p v, nth_error (set_nth i x l) p = Some v -> nth_error l p = Some v \/ (p = i /\ v = x).
  Proof.
    induction l as [|a l IH]; intros [|i] x [|p] v; cbn; try tauto; try discriminate.
    - intros [= <-]. auto.
    - intros Hv. destruct (IH i x p v Hv) as [|[-> ->]]; auto.
  Qed.
  Lemma fill_spec (given : list (nat * pv)) : forall vals vals', fill_values vals given = Some vals' ->
    length vals' = length vals /\ forall p v, nth_error vals' p = Some v -> nth_error vals p = Some v \/ In (p, v) given.
  Proof.
    induction given as [|[q w] given IH]; intros vals vals' Hf; cbn [fill_values In] in *.
    - injection Hf as <-. auto.
    - destruct (Nat.ltb q (length vals)); [|discriminate Hf]. destruct (IH _ _ Hf) as [HL Hv]. rewrite set_nth_len in HL. split; [assumption|].
      intros p v Hp. destruct (Hv p v Hp) as [Hn|Hn]; [|auto]. apply set_nth_nth in Hn as [|[-> ->]]; auto.
  Qed.
  Lemma prepop_fold (i : N) (l : list (nat * pv)) : forall pr x, In x (fold_left (fun pr x => prepopulate_wire h pr i (fst x) (snd x)) l pr) <->
    In x pr \/ exists p v n j, In (p, v) l /\ In (n, j) (linked_inputs h i p) /\ x = (n, j, v).
  Proof.
    induction l as [|[p v] l IH]; intros pr x; cbn.
    - split; [auto|]. intros [|(p & v & n & j & [] & _)]. assumption.
    - rewrite IH. unfold prepopulate_wire at 1. cbn. rewrite in_app_iff, in_map_iff. split.
      + intros [[Hx|(y & <- & Hy)]|(p' & v' & n & j & Hin & Hl & Hx)]; [auto| |right; exists p', v', n, j; auto].
        right. exists p, v, (fst y), (snd y). split; [auto|]. split; [|reflexivity]. destruct y; assumption.
      + intros [Hx|(p' & v' & n & j & [[= <- <-]|Hin] & Hl & ->)]; [auto| |right; exists p', v', n, j; auto].
        left. right. exists (n, j). auto.
  Qed.
  Lemma repeat_nth {A} (x : A) : forall n p v, nth_error (repeat x n) p = Some v -> v = x.
  Proof. intros n p v H. apply nth_error_In in H. exact (repeat_spec _ _ _ H). Qed.

  Lemma prepopulate_feeds pr e given proto cs outer (fr : @frame W) : prepopulate_inputs h pr e given = Prepared proto -> In e (h_nodes h) -> starts h e cs outer fr ->
    (forall p v c, In (p, v) given -> nth_error cs p = Some c -> allows meaning v c) -> feeds meaning h proto e cs.
  Proof.
    unfold prepopulate_inputs. intros H He Hs Hg. replace (contains h e) with true in H by (symmetry; apply memN_iff; exact He). cbn [negb] in H.
    destruct Hs as (_ & _ & _ & Hs). intros p c Hc.
    assert (Hfill : forall len vals, length cs = len -> fill_values (repeat Top len) given = Some vals -> exists v, nth_error vals p = Some v /\ allows meaning v c).
    { intros len vals HL Hf. destruct (fill_spec _ _ _ Hf) as [HLv Hv]. rewrite repeat_length in HLv. destruct (nth_error vals p) as [v|] eqn:Ev.
      - exists v. split; [reflexivity|]. destruct (Hv p v Ev) as [Ht|Ht]; [rewrite (repeat_nth _ _ _ _ Ht); constructor|eapply Hg; eassumption].
      - exfalso. apply nth_error_None in Ev. assert (p < length cs) by (apply nth_error_Some; congruence). lia. }
    assert (Hflow : forall i o, get_io h e = Some (i, o) -> fits h i cs ->
      match dataflow_signature (h_ops h i) with
      | None => PrepPanic
      | Some g => match fill_values (repeat Top (length (snd g))) given with
                  | None => PrepPanic
                  | Some vals => Prepared (fold_left (fun pr x => prepopulate_wire h pr i (fst x) (snd x)) (enumerate vals) pr)
                  end
      end = Prepared proto -> forall i' n j, (exists o', get_io h e = Some (i', o')) -> In (n, j) (linked_inputs h i' p) -> exists v, In (n, j, v) proto /\ allows meaning v c).
    { intros i o Hio Hf Hpr i' n j (o' & Hio') Hin. rewrite Hio in Hio'. injection Hio' as <- <-. unfold fits, out_count, sig_of in Hf.
      destruct (dataflow_signature (h_ops h i)) as [g|]; [|discriminate Hpr].
      destruct (fill_values (repeat Top (length (snd g))) given) as [vals|] eqn:Ef; [|discriminate Hpr]. injection Hpr as <-.
      destruct (Hfill _ _ Hf Ef) as (v & Hv & Ha). exists v. split; [|exact Ha]. apply prepop_fold. right. exists p, v, n, j. split; [apply enumerate_in; exact Hv|]. auto. }
    assert (Hcont : length cs = in_count h e ->
      match fill_values (repeat Top (in_count h e)) given with
      | None => PrepPanic
      | Some vals => Prepared (pr ++ map (fun x => (e, fst x, snd x)) (enumerate vals))
      end = Prepared proto -> exists v, In (e, p, v) proto /\ allows meaning v c).
    { intros HL Hpr. destruct (fill_values _ _) as [vals|] eqn:Ef; [|discriminate Hpr]. injection Hpr as <-. destruct (Hfill _ _ HL Ef) as (v & Hv & Ha). exists v. split; [|exact Ha].
      apply in_or_app. right. apply in_map_iff. exists (p, v). split; [reflexivity|]. apply enumerate_in. exact Hv. }
    unfold first_input.
    destruct (h_ops h e) eqn:Hop; try contradiction;
      first [destruct Hs as (i & o & Hio & Hf & _); rewrite Hio in H; exact (Hflow i o Hio Hf H)|destruct Hs as (HL & _); exact (Hcont HL H)].
  Qed.
End Start.
