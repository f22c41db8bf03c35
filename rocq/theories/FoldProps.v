(** Constant folding keeps what functions compute (claim C61). *)
From Coq Require Import List Bool NArith Arith Lia.
From Verif Require Import PValModel TagModel TypesModel GraphModel GraphSpec PValSpec PValProofs GraphProofs GraphRemove Graphs OpModel OpSpec DeadModel DeadSpec DeadProofs DeadProps InlineModel ReplaceModel ValidModel ValidSpec ValidProps FlowModel FlowSpec FlowProofs FlowProps EmitModel EmitSpec EmitGraph EmitProps NormModel FoldModel FoldSpec FoldGraph FoldSim FoldProofs MirrorProofs CullProofs CullProps.
Import ListNotations.
Local Notation wf := GraphSpec.wf.
Local Notation below := GraphSpec.below.

Section Theorems.
  Context {W V E F M : Type}.
  Notation hugr := (hugr op M).
  Variable veq : forall a b : V, {a = b} + {a <> b}.
  Variable meaning : V -> W.
  Variable sem : @semantics W E F.
  Variable ctx : @context V E F.
  Variable leaf : V -> value E F.
  Variable sum_ok : N -> list (value E F) -> list (list vty) -> bool.
  Variable type_of : value E F -> TypesModel.ty.
  Variable store : value E F -> N.
  Variable fresh : hugr -> N.
  Variable increase : bool.
  Variable env : N -> N -> option typedef.
  Variable defs : N -> N -> opsig.
  Notation fold_with := (fold_with leaf sum_ok type_of store fresh increase).
  Notation try_read := (try_read leaf sum_ok).
  Notation wires_to_break := (wires_to_break leaf sum_ok).

  (** The inputs of [f] are not taken to be constants: [f] is the entrypoint, or nothing is known of them. *)
  Definition open_inputs (h : hugr) (s : @facts V) (f : N) : Prop := f = h_entry h \/ forall i o p, get_io h f = Some (i, o) -> try_read h s i p = None.

  (** What is asked of the HUGR, the facts and the constants. *)
  Record foldable (h : hugr) (s : @facts V) (proto : list (N * nat * pv V N unit)) : Prop := {
    fo_wf : wf h;
    fo_valid : valid env defs h;
    fo_sensible : sensible meaning sem ctx h proto;
    fo_result : result ctx h veq proto s;
    fo_resolved : all_resolved h s;
    fo_leaves : leaves_ok meaning sem leaf;
    fo_stored : forall ws n i v, wires_to_break h s = Some ws -> In (n, i, v) ws -> content ctx (store v) = v }.

  Lemma terminating_in (h : hugr) (s : @facts V) loops : terminating h s = Some loops -> forall n, In n loops -> tail_loop_terminates h s n = Some (Some NeverContinues).
  Proof.
    intros H n Hn. unfold terminating in H. destruct (opt_flat_elem _ _ _ _ H Hn) as (x & zs & _ & Hx & Hz). destruct (tail_loop_terminates h s x) as [[[]|]|] eqn:Et; try discriminate; injection Hx as <-; try (destruct Hz; fail); destruct Hz as [<-|[]]; exact Et.
  Qed.

  Lemma fold_broken h s proto entries h' : foldable h s proto -> fold_with entries s h = Some (Done h') ->
    exists L h1 loops, broken type_of store h L h1 /\ dce (callback increase loops) h1 entries = Some (Done h') /\
      (forall n, In n loops -> tail_loop_terminates h s n = Some (Some NeverContinues)) /\
      forall k, In k L -> chosen leaf sum_ok h s (k_node k) (k_port k) (k_value k) /\ content ctx (store (k_value k)) = k_value k.
  Proof.
    intros [Wh V_ Q R U HL HS] Hf. unfold FoldModel.fold_with, opt_bind in Hf. destruct (wires_to_break h s) as [ws|] eqn:Ew; [|discriminate].
    destruct (terminating h s) as [loops|] eqn:Et; [|discriminate]. destruct (each _ ws h) as [h1|] eqn:Eb; [|discriminate].
    destruct (broken_all type_of store fresh h ws h1 Wh) as (L & HLw & B); [|exact Eb|].
    - intros n ip v Hin. apply (w_live _ _ _ _ _ _ _ (wires_chosen leaf sum_ok h s Wh ws n ip v Ew Hin)).
    - exists L, h1, loops. split; [exact B|]. split; [exact Hf|]. split; [exact (terminating_in h s loops Et)|]. intros k Hk. assert (Hin : In (wire_of k) ws) by (rewrite <- HLw; apply in_map; exact Hk).
      split; [exact (wires_chosen leaf sum_ok h s Wh ws _ _ _ Ew Hin)|exact (HS ws _ _ _ eq_refl Hin)].
  Qed.

  (** The values of the broken wires are the ones that arrive there. *)
  Lemma wire_known h s proto f nm g pub ins i o x fr n ip v c : foldable h s proto -> h_ops h f = OFuncDefn nm g pub -> get_io h f = Some (i, o) -> fits h i ins -> feeds meaning h proto f ins ->
    open_inputs h s f -> steps sem ctx h [(new_frame f i ins, None)] x -> top x fr -> chosen leaf sum_ok h s n ip v -> arrives h fr n ip c -> c = const_value sem v.
  Proof.
    intros [Wh V_ Q R U HL _] Hop Hio Hfit Hfeed Hopen Hs (r & rest & ->) C (m & p & row & Hslo & Hrow & Hc).
    destruct (w_read _ _ _ _ _ _ _ C) as (src & q & Hslo' & Hent & Hread). rewrite Hslo in Hslo'. injection Hslo' as <- <-.
    assert (Hnf : ~ first_input h f m).
    { unfold first_input. rewrite Hop. intros (o' & Ho'). destruct Hopen as [->|Hopen]; [|rewrite (Hopen m o' p Ho') in Hread; discriminate]. unfold entry_input in Hent. rewrite Ho', N.eqb_refl in Hent. discriminate. }
    assert (Hr : reaches meaning sem ctx h proto s f ins (fun _ => None) ((fr, r) :: rest)).
    { exists (new_frame f i ins). split; [apply (io_live h f i o Wh Hio)|]. split; [|split; [exact Hfeed|split; [discriminate|exact Hs]]].
      split; [reflexivity|]. split; [reflexivity|]. split; [reflexivity|]. rewrite Hop. exists i, o. auto. }
    assert (Ht : tracked h s ((fr, r) :: rest) fr) by (exists [], r, rest; split; [reflexivity|]; intros y z _; apply U).
    unfold FoldModel.try_read in Hread. destruct (read_out_wire h s m p) as [a|] eqn:Er; [|discriminate]. destruct (nth_error (snd (sig_of (h_ops h m))) p) as [t|]; [|discriminate].
    symmetry. apply (into_sound meaning sem leaf sum_ok HL a c (view t) v); [|exact Hread].
    exact (read_out_wire_sound veq meaning sem ctx h proto s f ins (fun _ => None) _ fr m p a row c Q R Hr Ht Er Hnf Hrow Hc).
  Qed.

  Lemma fold_steps h s proto entries h' f nm g pub ins outs : foldable h s proto -> fold_with entries s h = Some (Done h') -> h_ops h f = OFuncDefn nm g pub -> open_inputs h s f -> feeds meaning h proto f ins ->
    (forall L h1 loops, broken type_of store h L h1 -> tidy h1 -> keeps_functions (callback increase loops) h1 entries) -> evaluates sem ctx h f ins outs -> wf h' /\ evaluates sem ctx h' f ins outs.
  Proof.
    intros Fo Hf Hop Hopen Hfeed HK Hev. destruct (fold_broken h s proto entries h' Fo Hf) as (L & h1 & loops & B & Hd & _ & HL). pose proof (fo_wf _ _ _ Fo) as Wh. pose proof (fo_valid _ _ _ Fo) as V_.
    pose proof (valid_tidy env defs h Wh V_) as T.
    assert (Hflow : forall k p, In k L -> h_parent h (k_node k) = Some p -> flow_parent (h_ops h p) = true) by (intros k p Hk; apply (cut_flow leaf sum_ok h s env defs V_ _ _ _ p (proj1 (HL k Hk)))).
    pose proof (tidy_broken type_of store h h1 L Wh T B Hflow) as T1. pose proof (b_wf _ _ _ _ _ B) as W1. pose proof (HK L h1 loops B T1) as KF.
    destruct Hev as (i & o & fr & Hio & Hfit & Hs & Hin).
    assert (Hev : evaluates sem ctx h1 f ins outs).
    { refine (broken_evaluates sem ctx type_of store h h1 L Wh T B Hflow _ _ _ f nm g pub ins outs Hop _ _).
      - intros k b j Hk. apply (cut_control leaf sum_ok h s env defs V_ _ _ _ b j (proj1 (HL k Hk))).
      - intros n j Hst (k & Hk & <- & <-). exact (cut_static leaf sum_ok h s _ _ _ _ (proj1 (HL k Hk)) Hst eq_refl).
      - intros k Hk. apply (HL k Hk).
      - intros i' o' x fr' Hio' Hx Htop k c Hk Ha. rewrite Hio in Hio'. injection Hio' as <- <-. exact (wire_known h s proto f nm g pub ins i o x fr' _ _ _ c Fo Hop Hio Hfit Hfeed Hopen Hx Htop (proj1 (HL k Hk)) Ha).
      - exists i, o, fr. auto. }
    destruct (dce_culled (callback increase loops) h1 h' entries W1 T1 KF Hd) as (R & Wh' & C & HR & H1 & H2 & H3 & H4). split; [exact Wh'|].
    assert (Hfn : forall x, is_function (h_ops h1 x) -> ~ In x R).
    { intros x Hx Hi. apply (H4 x); [|exact Hx|exact Hi]. apply HR in Hi as [Hb _]. unfold GraphSpec.below in Hb. inversion Hb as [y Hy|? p ? Hp _]; subst; [apply (wf_entry _ W1)|apply (wf_parent_live h1 W1 _ _ Hp)]. }
    assert (Hop1 : h_ops h1 f = OFuncDefn nm g pub).
    { rewrite (b_ops _ _ _ _ _ B f); [exact Hop|]. intros Hm. apply (b_new _ _ _ _ _ B f Hm). apply (io_live h f i o Wh Hio). }
    assert (Kf : kept_node R f) by (apply kn; apply Hfn; rewrite Hop1; exact Logic.I).
    destruct Hev as (i1 & o1 & fr1 & Hio1 & Hfit1 & Hs1 & Hin1). destruct (culled_steps h1 h' R W1 Wh' C T1 H1 H2 H3 Hfn sem ctx f i1 ins fr1 Kf Hs1) as (fr2 & Hs2 & Htr).
    pose proof (mirror_kept h1 h' R W1 Wh' C T1 H1 H2 H3 Hfn) as Mk. destruct (m_io _ _ _ Mk f i1 o1 Kf Hio1) as (Hio2 & Ki & Ko).
    exists i1, o1, fr2. split; [exact Hio2|]. split; [eapply fits_mirror; [exact Mk|exact Ki|exact Hfit1]|]. split; [exact Hs2|]. apply Htr; assumption.
  Qed.

  Lemma fold_wf h s proto entries h' : foldable h s proto -> fold_with entries s h = Some (Done h') ->
    (forall L h1 loops, broken type_of store h L h1 -> tidy h1 -> keeps_functions (callback increase loops) h1 entries) -> wf h'.
  Proof.
    intros Fo Hf HK. destruct (fold_broken h s proto entries h' Fo Hf) as (L & h1 & loops & B & Hd & _ & HL). pose proof (fo_wf _ _ _ Fo) as Wh. pose proof (fo_valid _ _ _ Fo) as V_.
    pose proof (valid_tidy env defs h Wh V_) as T.
    assert (Hflow : forall k p, In k L -> h_parent h (k_node k) = Some p -> flow_parent (h_ops h p) = true) by (intros k p Hk; apply (cut_flow leaf sum_ok h s env defs V_ _ _ _ p (proj1 (HL k Hk)))).
    pose proof (tidy_broken type_of store h h1 L Wh T B Hflow) as T1. pose proof (b_wf _ _ _ _ _ B) as W1. pose proof (HK L h1 loops B T1) as KF.
    destruct (dce_culled (callback increase loops) h1 h' entries W1 T1 KF Hd) as (R & Wh' & _). exact Wh'.
  Qed.

  Lemma keeps_inside (h : hugr) L h1 cb : wf h -> valid env defs h -> is_module (h_ops h (h_entry h)) = false -> is_block (h_ops h (h_entry h)) = false ->
    broken type_of store h L h1 -> tidy h1 -> keeps_functions cb h1 [].
  Proof.
    intros Wh V_ Hm Hb B T1. pose proof (b_wf _ _ _ _ _ B) as W1.
    assert (He : h_ops h1 (h_entry h1) = h_ops h (h_entry h)).
    { rewrite (b_entry _ _ _ _ _ B). apply (b_ops _ _ _ _ _ B). intros Hma. apply (b_new _ _ _ _ _ B _ Hma). apply (wf_entry _ Wh). }
    constructor; [rewrite He; exact Hb|intros e a []|]. intros x Hx Heq Hxl. destruct (N.eq_dec x (h_root h1)) as [->|Hne]; [rewrite <- Heq; constructor|exfalso].
    destruct (wf_parent _ W1 x Hxl Hne) as (p & Hp & _). pose proof (t_fun _ T1 x p Hp Hx) as ->.
    destruct (made_dec L x) as [Hmx|Hmx]; [destruct (made_op type_of store h h1 L B x Hmx) as [(? & ? & ? & Ho)|(? & Ho)]; rewrite Ho in Hx; contradiction|].
    rewrite (b_parent _ _ _ _ _ B x Hmx) in Hp. rewrite (b_ops _ _ _ _ _ B x Hmx) in Hx. pose proof (function_parent env defs h x _ V_ Hp Hx) as Ho.
    rewrite (b_root _ _ _ _ _ B) in *. rewrite (b_entry _ _ _ _ _ B) in Heq. rewrite Heq, Ho in Hm. discriminate.
  Qed.
  Lemma keeps_module (h : hugr) L h1 cb entries : wf h -> h_entry h = h_root h -> h_ops h (h_root h) = OModule -> (forall e, In e entries -> In e (h_kids h (h_root h))) ->
    (forall x, In x (h_kids h (h_root h)) -> is_function (h_ops h x) -> In x entries) -> broken type_of store h L h1 -> tidy h1 -> keeps_functions cb h1 entries.
  Proof.
    intros Wh Heq Hmod Hin Hall B T1. pose proof (b_wf _ _ _ _ _ B) as W1.
    assert (Hr1 : h_root h1 = h_root h) by apply (b_root _ _ _ _ _ B). assert (He1 : h_entry h1 = h_root h1) by (rewrite Hr1, (b_entry _ _ _ _ _ B); exact Heq).
    assert (Ho1 : h_ops h1 (h_root h1) = OModule).
    { rewrite Hr1, (b_ops _ _ _ _ _ B); [exact Hmod|]. intros Hma. apply (b_new _ _ _ _ _ B _ Hma). rewrite <- Heq. apply (wf_entry _ Wh). }
    assert (Hold : forall x, In x (h_kids h (h_root h)) -> h_parent h1 x = Some (h_root h1)).
    { intros x Hx. apply (wf_kids _ Wh) in Hx. rewrite Hr1, (b_parent _ _ _ _ _ B); [exact Hx|]. intros Hma. apply (b_new _ _ _ _ _ B _ Hma). apply (wf_parent_live h Wh _ _ Hx). }
    constructor; [rewrite He1, Ho1; reflexivity| |].
    - intros e a He Hea Ha. unfold GraphSpec.below in Hea. inversion Hea as [|? p ? Hp Hpa]; subst; [apply needed_point; exact He|]. rewrite (Hold e (Hin e He)) in Hp. injection Hp as <-.
      apply (up_root h1 W1) in Hpa. subst a. rewrite <- He1. constructor.
    - intros x Hx _ Hxl. destruct (N.eq_dec x (h_root h1)) as [->|Hne]; [rewrite <- He1; constructor|]. destruct (wf_parent _ W1 x Hxl Hne) as (p & Hp & _).
      pose proof (t_fun _ T1 x p Hp Hx) as ->. apply needed_point.
      destruct (made_dec L x) as [Hmx|Hmx]; [destruct (made_op type_of store h h1 L B x Hmx) as [(? & ? & ? & Ho)|(? & Ho)]; rewrite Ho in Hx; contradiction|].
      rewrite (b_parent _ _ _ _ _ B x Hmx), Hr1 in Hp. rewrite (b_ops _ _ _ _ _ B x Hmx) in Hx. apply Hall; [apply (wf_kids _ Wh); exact Hp|exact Hx].
  Qed.

  (** The entrypoint is in a function, not a block: what a function computes, it computes after folding. *)
  Theorem fold_function_results h s proto h' f nm g pub ins outs : foldable h s proto ->
    is_module (h_ops h (h_entry h)) = false -> is_block (h_ops h (h_entry h)) = false ->
    h_ops h f = OFuncDefn nm g pub -> open_inputs h s f -> feeds meaning h proto f ins ->
    fold_with [] s h = Some (Done h') -> evaluates sem ctx h f ins outs -> evaluates sem ctx h' f ins outs.
  Proof.
    intros Fo Hm Hb Hop Hopen Hfeed Hf Hev. refine (proj2 (fold_steps h s proto [] h' f nm g pub ins outs Fo Hf Hop Hopen Hfeed _ Hev)).
    intros L h1 loops B T1. exact (keeps_inside h L h1 _ (fo_wf _ _ _ Fo) (fo_valid _ _ _ Fo) Hm Hb B T1).
  Qed.

  (** The entrypoint is the module, and all functions are entry points. *)
  Theorem fold_module_results h s proto entries h' f nm g pub ins outs : foldable h s proto ->
    h_entry h = h_root h -> h_ops h (h_root h) = OModule -> (forall e, In e entries -> In e (h_kids h (h_root h))) ->
    (forall x, In x (h_kids h (h_root h)) -> is_function (h_ops h x) -> In x entries) ->
    h_ops h f = OFuncDefn nm g pub -> open_inputs h s f -> feeds meaning h proto f ins ->
    fold_with entries s h = Some (Done h') -> evaluates sem ctx h f ins outs -> evaluates sem ctx h' f ins outs.
  Proof.
    intros Fo Heq Hmod Hin Hall Hop Hopen Hfeed Hf Hev. refine (proj2 (fold_steps h s proto entries h' f nm g pub ins outs Fo Hf Hop Hopen Hfeed _ Hev)).
    intros L h1 loops B T1. exact (keeps_module h L h1 _ entries (fo_wf _ _ _ Fo) Heq Hmod Hin Hall B T1).
  Qed.

  (** Unless the pass may make programs terminate: a control flow graph, a call or a loop that is in a region that is kept is kept, except for loops that never
      continue in any run. *)
  Theorem fold_keeps_running h s proto entries h' n p : increase = false -> foldable h s proto -> fold_with entries s h = Some (Done h') ->
    h_parent h n = Some p -> below h p (h_entry h) -> In p (h_nodes h') ->
    match h_ops h n with OCfg _ | OTailLoop _ _ _ | OCall _ _ _ => True | _ => False end ->
    In n (h_nodes h') \/
    (exists ji jo r, h_ops h n = OTailLoop ji jo r) /\
    forall f nm g pub ins i o x fr i' o' k vs rest, h_ops h f = OFuncDefn nm g pub -> get_io h f = Some (i, o) -> fits h i ins -> feeds meaning h proto f ins ->
      steps sem ctx h [(new_frame f i ins, None)] x -> top x fr -> get_io h n = Some (i', o') -> inputs h fr o' (CSum k vs :: rest) -> k <> 0%N.
  Proof.
    intros Hinc Fo Hf Hp Hb Hpl Hop. destruct (fold_broken h s proto entries h' Fo Hf) as (L & h1 & loops & B & Hd & Hloops & _). pose proof (fo_wf _ _ _ Fo) as Wh. pose proof (b_wf _ _ _ _ _ B) as W1.
    destruct (wf_parent_live h Wh n p Hp) as (Hn & Hpn & _). assert (Hold : forall x, In x (h_nodes h) -> ~ made L x) by (intros x Hx Hma; exact (b_new _ _ _ _ _ B x Hma Hx)).
    destruct (in_dec N.eq_dec n (h_nodes h')) as [Hi|Hi]; [left; exact Hi|right]. destruct (dce_exact _ _ _ _ W1 Hd) as (D & _).
    assert (Hb1 : below h1 p (h_entry h1)).
    { rewrite (b_entry _ _ _ _ _ B). unfold GraphSpec.below in *. clear - Hb Hold B Wh Hpn. induction Hb as [x|x q e Hq Hb IH]; [constructor|]. eapply up_next; [rewrite (b_parent _ _ _ _ _ B x (Hold x Hpn)); exact Hq|]. apply IH. apply (wf_parent_live h Wh x q Hq). }
    assert (Hp1 : h_parent h1 n = Some p) by (rewrite (b_parent _ _ _ _ _ B n (Hold n Hn)); exact Hp).
    assert (Hn1 : In n (h_nodes h1)) by (apply (b_nodes _ _ _ _ _ B); left; exact Hn).
    destruct (memN n loops) eqn:Em.
    - apply memN_iff in Em. pose proof (Hloops n Em) as Ht. split.
      + unfold tail_loop_terminates in Ht. destruct (h_ops h n); try discriminate. eauto.
      + intros f nm g pub ins i o x fr i' o' k vs rest Hfo Hio Hfit Hfeed Hs (r & rst & ->) Hion Hin Hk. destruct Fo as [_ V_ Q R U HL _].
        assert (Hr : reaches meaning sem ctx h proto s f ins (fun _ => None) ((fr, r) :: rst)).
        { exists (new_frame f i ins). split; [apply (io_live h f i o Wh Hio)|]. split; [|split; [exact Hfeed|split; [discriminate|exact Hs]]].
          split; [reflexivity|]. split; [reflexivity|]. split; [reflexivity|]. rewrite Hfo. exists i, o. auto. }
        assert (Htr : FlowSpec.tracked h s ((fr, r) :: rst) fr) by (exists [], r, rst; split; [reflexivity|]; intros y z _; apply U).
        exact (proj2 (tail_loop_sound veq meaning sem ctx h proto s f ins (fun _ => None) _ fr n _ i' o' k vs rest Q R Hr Htr Ht Hion Hin) Hk eq_refl).
    - exfalso. assert (Hcb : callback increase loops h1 n = MustKeep).
      { unfold callback. rewrite Hinc, Em. unfold default_for. rewrite (b_ops _ _ _ _ _ B n (Hold n Hn)). destruct (h_ops h n); try contradiction; reflexivity. }
      assert (Hnn : needed (callback increase loops) h1 entries p -> needed (callback increase loops) h1 entries n) by (intros Hq; eapply needed_next; [exact Hq|]; apply needs_kept; [exact Hp1|]; apply kept_here; exact Hcb).
      apply Hi. apply (dr_nodes _ _ _ D). split; [exact Hn1|]. intros [_ Hx]. apply (dr_nodes _ _ _ D) in Hpl as [_ Hpl]. apply Hpl. split; [exact Hb1|]. intros Hq. exact (Hx (Hnn Hq)).
  Qed.

  (** The result is well formed. *)
  Theorem fold_keeps_wf h s proto h' : foldable h s proto -> is_module (h_ops h (h_entry h)) = false -> is_block (h_ops h (h_entry h)) = false ->
    fold_with [] s h = Some (Done h') -> wf h'.
  Proof.
    intros Fo Hm Hb Hf. apply (fold_wf h s proto [] h' Fo Hf). intros L h1 loops B T1. exact (keeps_inside h L h1 _ (fo_wf _ _ _ Fo) (fo_valid _ _ _ Fo) Hm Hb B T1).
  Qed.
  Theorem fold_module_wf h s proto entries h' : foldable h s proto ->
    h_entry h = h_root h -> h_ops h (h_root h) = OModule -> (forall e, In e entries -> In e (h_kids h (h_root h))) ->
    (forall x, In x (h_kids h (h_root h)) -> is_function (h_ops h x) -> In x entries) -> fold_with entries s h = Some (Done h') -> wf h'.
  Proof.
    intros Fo Heq Hmod Hin Hall Hf. apply (fold_wf h s proto entries h' Fo Hf). intros L h1 loops B T1. exact (keeps_module h L h1 _ entries (fo_wf _ _ _ Fo) Heq Hmod Hin Hall B T1).
  Qed.

  Lemma valid_branches (h : hugr) : valid env defs h -> branches_ok h.
  Proof.
    intros V_ b Hb Hblk p Hp. destruct (v_ports _ _ _ V_ b Hb) as (ki & ko & _ & Pk & _ & HL). unfold linked_inputs. rewrite map_length.
    assert (Hk : kind_at h b Out p EControl).
    { exists ko. split; [exact Pk|]. destruct (nth_error ko p) as [k|] eqn:En; [|apply nth_error_None in En; lia]. destruct (h_ops h b); try discriminate. inversion Pk; subst.
      apply nth_error_In in En. apply in_map_iff in En as (r & <- & _). reflexivity. }
    exact (v_outputs _ _ _ V_ b p EControl Hb Hk Logic.I).
  Qed.

  Lemma wire_tops (h : hugr) pr i l : (forall n p v, In (n, p, v) pr -> v = @Top V N unit) -> (forall x, In x l -> snd x = @Top V N unit) ->
    forall n p v, In (n, p, v) (fold_left (fun pr x => prepopulate_wire h pr i (fst x) (snd x)) l pr) -> v = Top.
  Proof.
    revert pr. induction l as [|x l IH]; intros pr Hpr Hl n p v Hin; [exact (Hpr n p v Hin)|]. cbn in Hin. apply (IH (prepopulate_wire h pr i (fst x) (snd x))) in Hin; [exact Hin| |intros y Hy; apply Hl; right; exact Hy].
    intros m q w Hw. unfold prepopulate_wire in Hw. apply in_app_or in Hw as [Hw|Hw]; [exact (Hpr m q w Hw)|]. apply in_map_iff in Hw as (e & Heq & _). injection Heq as _ _ <-. apply Hl. left. reflexivity.
  Qed.
  Lemma start_tops (h : hugr) proto : run_proto h [] [] = Prepared proto -> forall n p v, In (n, p, v) proto -> v = @Top V N unit.
  Proof.
    assert (Hrep : forall k x, In x (enumerate (repeat (@Top V N unit) k)) -> snd x = Top).
    { intros k [j x] Hx. unfold enumerate in Hx. apply in_combine_r in Hx. exact (repeat_spec _ _ _ Hx). }
    unfold run_proto. destruct (is_module _); [intros [= <-] n p v []|]. cbn [existsb negb orb]. unfold prepopulate_inputs. intros H.
    destruct (negb (contains h (h_entry h))); [injection H as <-; intros n p v []|].
    destruct (h_ops h (h_entry h)); try discriminate; cbn [fill_values] in H;
      try (injection H as <-; intros n p v Hin; apply in_map_iff in Hin as (x & Heq & Hx); injection Heq as _ _ <-; exact (Hrep _ x Hx));
      (destruct (get_io h (h_entry h)) as [[i o]|]; [|discriminate]; destruct (dataflow_signature (h_ops h i)) as [sg|]; [|discriminate]; injection H as <-; apply wire_tops; [intros n p v []|apply Hrep]).
  Qed.

  (** The pass without inputs, on a HUGR whose entrypoint is a function: every premise about the start of the analysis holds. *)
  Theorem fold_entry_results h s proto h' nm g pub ins outs : wf h -> valid env defs h ->
    interprets meaning sem ctx h -> loads_ok meaning sem ctx -> interpret_wf ctx -> leaves_ok meaning sem leaf ->
    h_ops h (h_entry h) = OFuncDefn nm g pub -> fold_start ctx h [] = Some proto -> result ctx h veq proto s -> all_resolved h s ->
    (forall ws n i v, wires_to_break h s = Some ws -> In (n, i, v) ws -> content ctx (store v) = v) ->
    fold_with [] s h = Some (Done h') -> evaluates sem ctx h (h_entry h) ins outs -> evaluates sem ctx h' (h_entry h) ins outs.
  Proof.
    intros Wh V_ Hi Hl Hw HL Hop Hst Hres Hall HS Hf Hev. unfold fold_start in Hst. cbn [prepare] in Hst. destruct (run_proto h [] []) as [pr| |] eqn:Er; try discriminate. injection Hst as <-.
    assert (Fo : foldable h s pr).
    { constructor; try assumption. constructor; try assumption; [apply valid_branches; exact V_|]. intros n p v Hin. rewrite (start_tops h pr Er n p v Hin). constructor. }
    pose proof Hev as (i & o & fr & Hio & Hfit & _). refine (fold_function_results h s pr h' (h_entry h) nm g pub ins outs Fo _ _ Hop (or_introl eq_refl) _ Hf Hev); try (rewrite Hop; reflexivity).
    refine (run_inputs_sound meaning h [] [] pr ins (fun _ => None) (new_frame (h_entry h) i ins) Er (wf_entry _ Wh) _ _ _).
    - split; [reflexivity|]. split; [reflexivity|]. split; [reflexivity|]. rewrite Hop. exists i, o. auto.
    - right. intros p v [].
    - intros p v c [].
  Qed.
End Theorems.
Print Assumptions fold_function_results.
Print Assumptions fold_module_results.
Print Assumptions fold_entry_results.
Print Assumptions fold_keeps_wf.
Print Assumptions fold_keeps_running.
Print Assumptions fold_module_wf.

(** ** Examples *)
(** Constants are numbers, kept under themselves; extension operations add one to a number. *)
Definition fold_ctx : @context N N N :=
  {| tuple_kind := fun _ _ => None;
     interpret := fun _ ins outs => match ins with [Val x] => [Val (x + 1)%N] | _ => outs end;
     from_opaque := fun _ e => Some e; from_hugr := fun _ _ => None; content := fun n => KExt n |}.
Definition as_const (v : N) : value N N := KExt v.
Definition any_sum (_ : N) (_ : list (value N N)) (_ : list (list vty)) : bool := true.
Definition bit_const (_ : value N N) : TypesModel.ty := bit.
Definition store_at (v : value N N) : N := match v with KExt n => n | _ => 0%N end.
Definition next_node (h : hugr op N) : N := fold_right N.max 0%N (map (fun n => (n + 1)%N) (h_nodes h)).
Definition fold_toy (entries : list N) (s : @facts N) (h : hugr op N) := fold_with as_const any_sum bit_const store_at next_node false entries s h.
Definition fold_facts (h : hugr op N) (pr : list (N * nat * pv N N unit)) : @facts N := match sweeps N.eq_dec fold_ctx h pr 60 no_facts with Some s => s | None => no_facts end.
Lemma fold_facts_result (h : hugr op N) pr : is_some (sweeps N.eq_dec fold_ctx h pr 60 no_facts) = true -> result fold_ctx h N.eq_dec pr (fold_facts h pr).
Proof. intros H. unfold fold_facts. destruct (sweeps N.eq_dec fold_ctx h pr 60 no_facts) as [s|] eqn:Es; [|discriminate H]. eapply sweeps_result; [apply run_start|exact Es]. Qed.
Definition fold_op (n : N) (ins : list (conc N N unit)) : option (list (conc N N unit)) := match ins with [CVal x] => Some [CVal (x + 1)%N] | _ => None end.
Definition fold_sem : @semantics N N N :=
  {| op_sem := fun n ins outs => fold_op n ins = Some outs; call_value := fun _ _ _ => False; call_extern := fun _ _ outs => outs = [CVal 8%N]; ext_value := fun e => e; fun_value := fun f => f |}.
Lemma fold_interprets (h : hugr op N) : interprets same fold_sem fold_ctx h.
Proof.
  intros n ins outs vs Hop HL HF. cbn in Hop. cbn [interpret fold_ctx].
  assert (T : Forall2 (allows same) (repeat Top (out_count h n)) outs) by (rewrite <- HL; apply tops_allow).
  destruct vs as [|[| |x| |] [|]]; try exact T. inversion HF as [|? ? ? ? Hx HF']; subst. inversion HF'; subst. inversion Hx; subst. cbn in Hop. injection Hop as <-. constructor; [|constructor].
  apply (a_val same (x + 1)%N).
Qed.
Lemma fold_loads : loads_ok same fold_sem fold_ctx.
Proof. split; [intros loc e v [= <-]; reflexivity|discriminate]. Qed.
Lemma fold_order : interpret_wf fold_ctx.
Proof. intros n ins outs Hi Ho. cbn. destruct ins as [|[| |x| |] [|]]; try exact Ho. repeat constructor. Qed.
Lemma fold_leaves : leaves_ok same fold_sem as_const.
Proof. intros v. reflexivity. Qed.
Definition plain_value (v : value N N) : bool := match v with KExt _ => true | _ => false end.
Lemma plain_stored (ws : list (N * nat * value N N)) : forallb (fun x => plain_value (snd x)) ws = true -> forall n i v, In (n, i, v) ws -> content fold_ctx (store_at v) = v.
Proof. intros H n i v Hin. rewrite forallb_forall in H. specialize (H _ Hin). cbn in H. destruct v; try discriminate. reflexivity. Qed.
Definition no_indirect (h : hugr op N) : bool := forallb (fun n => negb (match h_ops h n with OCallIndirect _ => true | _ => false end)) (h_nodes h).
Lemma resolved_check (h : hugr op N) (s : @facts N) : (forall n, In n (h_nodes h) \/ h_ops h n = OModule) -> no_indirect h = true -> all_resolved h s.
Proof.
  intros Hn H n (g & Ho & _). destruct (Hn n) as [Hl|He]; [|congruence]. unfold no_indirect in H. rewrite forallb_forall in H. specialize (H n Hl). rewrite Ho in H. discriminate.
Qed.

(** Function 4 adds one to the constant 5 twice and calls function 1, the identity, with the result; it also adds one to its input. *)
Definition sums_acts : list (act (O := op) (M := N)) :=
  [AddChild 1%N 0%N (fn 1); AddChild 2%N 1%N (OInput [bit]); AddChild 3%N 1%N (OOutput [bit]); Connect 2%N 0 3%N 0;
   AddChild 4%N 0%N (OFuncDefn 2 {| p_params := []; p_ins := [bit]; p_outs := [bit; bit] |} true); AddChild 5%N 4%N (OInput [bit]); AddChild 6%N 4%N (OOutput [bit; bit]);
   AddChild 7%N 4%N (OConst 5 bit true); AddChild 8%N 4%N (OLoadConstant bit); Connect 7%N 0 8%N 0;
   AddChild 9%N 4%N (bit_op 0); Connect 8%N 0 9%N 0; AddChild 10%N 4%N (bit_op 0); Connect 9%N 0 10%N 0;
   AddChild 11%N 4%N call_op; Connect 10%N 0 11%N 0; Connect 1%N 0 11%N 1; Connect 11%N 0 6%N 0;
   AddChild 12%N 4%N (bit_op 0); Connect 5%N 0 12%N 0; Connect 12%N 0 6%N 1].
Definition sums : hugr op N := graph_of (make (sums_acts ++ [SetEntry 4%N])).
Definition sums_start : list (N * nat * pv N N unit) := match fold_start fold_ctx sums [] with Some p => p | None => [] end.
Definition sums_facts : @facts N := fold_facts sums sums_start.
Example sums_wires : wires_to_break as_const any_sum sums sums_facts = Some [(6%N, 0, KExt 7%N); (10%N, 0, KExt 6%N); (11%N, 0, KExt 7%N)].
Proof. vm_compute. reflexivity. Qed.

(** Functions are run by the code that is emitted for them. *)
Definition fold_run (h : hugr op N) (f : N) (ins : list (conc N N unit)) : option (list (conc N N unit)) :=
  match emitted fold_ctx h everything f with
  | Some fn => eval (fun e => e) fold_op (emitted fold_ctx h everything) 200 (f_code fn) (f_code fn 0%N) no_mem (with_params ins)
  | None => None
  end.
Lemma fold_computes (h : hugr op N) f ins outs : wf h -> valid no_types simple_ops h ->
  match emitted fold_ctx h everything f with Some fn => Nat.eqb (length ins) (f_params fn) | None => false end = true ->
  fold_run h f ins = Some outs -> computes fold_sem fold_ctx h f ins outs.
Proof.
  intros Wf Va Lp X. unfold fold_run in X. destruct (emitted fold_ctx h everything f) as [fn|] eqn:Ef; [|discriminate]. apply Nat.eqb_eq in Lp.
  destruct (eval_exec _ _ _ (externs fold_sem h) _ _ _ _ _ _ X) as (k & Y).
  refine (emission_correct no_types simple_ops h fold_sem fold_ctx everything (op_rel fold_op) Wf Va _ f fn ins outs Ef _); [|exists k; split; [exact Lp|exact Y]].
  intros n e nm a g i o On R. eapply l_ext; [exact On|reflexivity|exact R].
Qed.
(** Without declared functions, nothing else is called. *)
Lemma no_extern (h : hugr op N) f ins outs : (forall n nm g pub, h_ops h n <> OFuncDecl nm g pub) -> computes fold_sem fold_ctx h f ins outs -> evaluates fold_sem fold_ctx h f ins outs.
Proof.
  intros Hd (i & o & fr & Hio & Hfit & Hs & Hin). exists i, o, fr. split; [exact Hio|]. split; [exact Hfit|]. split; [|exact Hin]. clear Hin. remember [(fr, None)] as st eqn:Hst. clear Hst.
  induction Hs as [st|a b c Hab IH [Hbc|Hbc]]; [constructor|eapply steps_more; eassumption|]. exfalso. destruct Hbc as [? ? ? ? ? ? ? ? ? ? _ _ Ho]. exact (Hd _ _ _ _ Ho).
Qed.

(** Indices that are not in use have no operation. *)
Definition simple_act (a : act (O := op) (M := N)) : bool := match a with AddChild _ _ _ | Connect _ _ _ _ | SetEntry _ => true | _ => false end.
Lemma step_unused (h h' : hugr op N) a : simple_act a = true -> GraphModel.step OModule OpModel.in_count OpModel.out_count h a = Some h' -> (forall n, ~ In n (h_nodes h) -> h_ops h n = OModule) -> forall n, ~ In n (h_nodes h') -> h_ops h' n = OModule.
Proof.
  intros Ha Hs Hd n Hn. destruct a; try discriminate; cbn in Hs.
  - apply add_inv in Hs as (_ & H1 & _ & _ & H2 & _). rewrite H2. rewrite H1 in Hn. unfold upd. destruct (N.eqb_spec n n0) as [->|_]; [exfalso; apply Hn; left; reflexivity|]. apply Hd. intros H. apply Hn. right. exact H.
  - apply connect_inv in Hs as (H1 & _ & _ & H2 & _). rewrite H2. apply Hd. rewrite <- H1. exact Hn.
  - unfold set_entrypoint in Hs. destruct (contains h n0); [|discriminate]. injection Hs as <-. apply Hd. exact Hn.
Qed.
Lemma make_unused acts : forallb simple_act acts = true -> forall n, In n (h_nodes (graph_of (make acts))) \/ h_ops (graph_of (make acts)) n = OModule.
Proof.
  intros Ha n. destruct (in_dec N.eq_dec n (h_nodes (graph_of (make acts)))) as [H|H]; [auto|]. right. revert n H.
  assert (Hrun : forall acts, forallb simple_act acts = true -> forall h h', GraphModel.run OModule OpModel.in_count OpModel.out_count h acts = Some h' -> (forall n, ~ In n (h_nodes h) -> h_ops h n = OModule) -> forall n, ~ In n (h_nodes h') -> h_ops h' n = OModule).
  { clear. induction acts as [|a acts IH]; intros Ha h h' Hr Hd; cbn [GraphModel.run] in Hr; [injection Hr as <-; exact Hd|]. cbn [forallb] in Ha. apply andb_true_iff in Ha as [Ha Hl].
    destruct (GraphModel.step _ _ _ h a) as [h1|] eqn:Es; [|discriminate]. apply (IH Hl h1 h' Hr). exact (step_unused h h1 a Ha Es Hd). }
  unfold graph_of, make. destruct (GraphModel.run _ _ _ (new_hugr OModule 0%N) acts) as [h'|] eqn:Er.
  - apply (Hrun acts Ha _ _ Er). reflexivity.
  - reflexivity.
Qed.

Example sums_wf : wf sums.
Proof. apply built_wf. vm_compute. tauto. Qed.
Example sums_valid : valid no_types simple_ops sums.
Proof. apply validate_accepts; [exact sums_wf|]. vm_compute. reflexivity. Qed.
Lemma sums_unused n : In n (h_nodes sums) \/ h_ops sums n = OModule.
Proof. exact (make_unused (sums_acts ++ [SetEntry 4%N]) eq_refl n). Qed.
Lemma sums_resolved : all_resolved sums sums_facts.
Proof. apply resolved_check; [exact sums_unused|vm_compute; reflexivity]. Qed.
Lemma sums_stored ws n i v : wires_to_break as_const any_sum sums sums_facts = Some ws -> In (n, i, v) ws -> content fold_ctx (store_at v) = v.
Proof. rewrite sums_wires. intros [= <-]. apply plain_stored. reflexivity. Qed.
Example sums_before : evaluates fold_sem fold_ctx sums 4%N [CVal 3%N] [CVal 7%N; CVal 4%N].
Proof.
  apply no_extern; [|apply fold_computes; [exact sums_wf|exact sums_valid|vm_compute; reflexivity|vm_compute; reflexivity]]. intros n nm g pub Ho. destruct (sums_unused n) as [H|H]; [|congruence].
  assert (X : forallb (fun n => negb (match h_ops sums n with OFuncDecl _ _ _ => true | _ => false end)) (h_nodes sums) = true) by (vm_compute; reflexivity).
  rewrite forallb_forall in X. specialize (X n H). rewrite Ho in X. discriminate.
Qed.
(** The first two extension operations are gone, and the output takes a new constant; the call (of which the effects are not known) stays. *)
Definition folded (h : hugr op N) (entries : list N) (s : @facts N) : hugr op N := match fold_toy entries s h with Some (Done h') => h' | _ => h end.
Definition folds (h : hugr op N) (entries : list N) (s : @facts N) : bool := match fold_toy entries s h with Some (Done _) => true | _ => false end.
Lemma folded_done h entries s : folds h entries s = true -> fold_toy entries s h = Some (Done (folded h entries s)).
Proof. unfold folds, folded. destruct (fold_toy entries s h) as [[]|]; try discriminate. reflexivity. Qed.
Example sums_folded : folds sums [] sums_facts = true /\ h_nodes (folded sums [] sums_facts) = [18; 17; 14; 13; 12; 11; 6; 5; 4; 3; 2; 1; 0]%N /\
  h_ops (folded sums [] sums_facts) 13%N = OConst 7 bit true /\ linked_outputs (folded sums [] sums_facts) 6%N 0 = [(14%N, 0)].
Proof. vm_compute. auto. Qed.
Lemma toy_entry (h h' : hugr op N) proto nm g pub f ins outs : wf h -> valid no_types simple_ops h -> h_entry h = f -> h_ops h f = OFuncDefn nm g pub -> fold_start fold_ctx h [] = Some proto ->
  is_some (sweeps N.eq_dec fold_ctx h proto 60 no_facts) = true -> all_resolved h (fold_facts h proto) ->
  (forall ws n i v, wires_to_break as_const any_sum h (fold_facts h proto) = Some ws -> In (n, i, v) ws -> content fold_ctx (store_at v) = v) ->
  fold_toy [] (fold_facts h proto) h = Some (Done h') -> evaluates fold_sem fold_ctx h f ins outs -> evaluates fold_sem fold_ctx h' f ins outs.
Proof.
  intros Wh V_ <- Hop Hst Hsw Hres Hsto Hf. exact (fold_entry_results N.eq_dec same fold_sem fold_ctx as_const any_sum bit_const store_at next_node false no_types simple_ops h (fold_facts h proto) proto h' nm g pub ins outs
    Wh V_ (fold_interprets h) fold_loads fold_order fold_leaves Hop Hst (fold_facts_result h proto Hsw) Hres Hsto Hf).
Qed.
Lemma sums_entry : h_entry sums = 4%N /\ h_ops sums 4%N = OFuncDefn 2 {| p_params := []; p_ins := [bit]; p_outs := [bit; bit] |} true /\ fold_start fold_ctx sums [] = Some sums_start /\
  is_some (sweeps N.eq_dec fold_ctx sums sums_start 60 no_facts) = true.
Proof. vm_compute. auto. Qed.
Example sums_after : evaluates fold_sem fold_ctx (folded sums [] sums_facts) 4%N [CVal 3%N] [CVal 7%N; CVal 4%N].
Proof.
  destruct sums_entry as (H1 & H2 & H3 & H4). exact (toy_entry sums (folded sums [] sums_facts) sums_start _ _ _ 4%N _ _ sums_wf sums_valid H1 H2 H3 H4 sums_resolved sums_stored (folded_done sums [] sums_facts (proj1 sums_folded)) sums_before).
Qed.

(** ** Where folding goes wrong *)
(** All that a node that loads a constant can give is this constant. *)
Section Only.
  Context {W V E F M : Type}.
  Variable sem : @semantics W E F.
  Variable ctx : @context V E F.
  Variable h : hugr op M.
  Hypothesis Wh : wf h.
  Hypothesis T : tidy h.
  Variable l c : N.
  Variable q : nat.
  Variable t t' : TypesModel.ty.
  Variable k : N.
  Variable ok : bool.
  Hypothesis Hl : h_ops h l = OLoadConstant t.
  Hypothesis Hs : single_linked_output h l 0 = Some (c, q).
  Hypothesis Hc : h_ops h c = OConst k t' ok.

  Definition only (fr : @frame W) : Prop := forall row, FlowSpec.env fr l = Some row -> row = [const_value sem (content ctx k)].
  Definition all_only (st : @stack W) : Prop := forall fr r, In (fr, r) st -> only fr /\ r <> Some l.

  Lemma only_put fr n cs : only fr -> (n = l -> cs = [const_value sem (content ctx k)]) -> only (put fr n cs).
  Proof. intros Ho Hn row. cbn. unfold upd. destruct (N.eqb_spec l n) as [<-|_]; [|apply Ho]. intros [= <-]. apply Hn. reflexivity. Qed.
  Lemma only_enter fr p i o cs : only fr -> get_io h p = Some (i, o) -> only (enter h fr p i cs).
  Proof.
    intros Ho Hio row. cbn. destruct (N.eqb_spec l i) as [<-|_].
    - exfalso. destruct (io_live h p l o Wh Hio) as [Hp Hf]. destruct (t_region _ T p Hp Hf) as (a & b & rest & Hk & (r & Ha) & _). unfold get_io in Hio. rewrite Hf, Hk in Hio. injection Hio as -> _. congruence.
    - destruct (memN l (descendants h p)); [discriminate|apply Ho].
  Qed.
  Lemma only_move fr n b : only fr -> only (move fr n b).
  Proof. auto. Qed.
  Lemma only_local fr fr' : only fr -> local_step sem ctx h fr fr' -> only fr'.
  Proof.
    intros Ho H. destruct H; repeat first [apply only_move | eapply only_enter; [|eassumption] | apply only_put]; try exact Ho; try (intros ->; congruence).
    intros ->. match goal with X : leaf_step _ _ _ _ _ _ |- _ => destruct X; try congruence end.
    match goal with X : single_linked_output h l 0 = Some e |- _ => rewrite Hs in X; injection X as <- end. cbn [fst] in *. congruence.
  Qed.
  Lemma only_steps st st' : all_only st -> all_steps sem ctx h st st' -> all_only st'.
  Proof.
    intros Ha H. induction H as [|a b d Hab IH Hbd]; [exact Ha|]. specialize (IH Ha). destruct Hbd as [Hbd|Hbd]; [destruct Hbd as [fr fr' r st Hst|fr r st n f nm g pub i o ins Hw Hca Hf Hi Hfit|fr n fr' r st i o outs Hi Hin Hfit]|destruct Hbd as [fr r st n f nm g pub ins outs Hw Hca Hf Hx Hfit]]; intros x y [Hin'|Hin'].
    - injection Hin' as <- <-. destruct (IH fr r (or_introl eq_refl)) as [H1 H2]. split; [eapply only_local; eassumption|exact H2].
    - apply IH. right. exact Hin'.
    - injection Hin' as <- <-. split.
      + intros row. cbn. destruct (N.eqb_spec l i) as [<-|_]; [|discriminate]. exfalso. destruct (io_live h f l o Wh Hi) as [Hp Hfp].
        destruct (t_region _ T f Hp Hfp) as (a0 & b0 & rest & Hk & (r' & Ha') & _). unfold get_io in Hi. rewrite Hfp, Hk in Hi. injection Hi as -> _. congruence.
      + intros [= ->]. destruct Hca; congruence.
    - apply IH. exact Hin'.
    - injection Hin' as <- <-. destruct (IH fr' r (or_intror (or_introl eq_refl))) as [H1 H2]. split; [|exact H2]. apply only_put; [exact H1|]. intros ->. exfalso. apply (proj2 (IH fr (Some l) (or_introl eq_refl))). reflexivity.
    - apply IH. right. right. exact Hin'.
    - injection Hin' as <- <-. destruct (IH fr r (or_introl eq_refl)) as [H1 H2]. split; [|exact H2]. apply only_put; [exact H1|]. intros ->. destruct Hca; congruence.
    - apply IH. right. exact Hin'.
  Qed.
  (** A function whose only output takes the loaded constant gives nothing else. *)
  Lemma only_result f i o ins outs : get_io h f = Some (i, o) -> FlowModel.in_count h o = 1 -> single_linked_output h o 0 = Some (l, 0) -> (forall nm g pub, h_ops h o <> OFuncDefn nm g pub) ->
    is_function (h_ops h f) -> computes sem ctx h f ins outs -> outs = [const_value sem (content ctx k)].
  Proof.
    intros Hio Hn Hol Hof Hfun (i' & o' & fr & Hio' & _ & Hst & Hin). rewrite Hio in Hio'. injection Hio' as <- <-.
    assert (Ha : all_only [(new_frame f i ins, None)]).
    { intros x y [Hx|[]]. injection Hx as <- <-. split; [|discriminate]. intros row. cbn. destruct (N.eqb_spec l i) as [<-|_]; [|discriminate]. exfalso. destruct (io_live h f l o Wh Hio) as [Hp Hfp].
      destruct (t_region _ T f Hp Hfp) as (a & b & rest & Hk & (r' & Ha') & _). unfold get_io in Hio. rewrite Hfp, Hk in Hio. injection Hio as -> _. congruence. }
    destruct (only_steps _ _ Ha Hst fr None (or_introl eq_refl)) as [Ho _]. unfold inputs in Hin.
    assert (Hbase : start fr = f).
    { assert (Hb : forall a b, all_steps sem ctx h a b -> base b = base a).
      { clear. intros a b H. induction H as [|a b d Hab IH [Hbd|Hbd]]; [reflexivity|rewrite <- IH; eapply step_base; exact Hbd|]. rewrite <- IH. destruct Hbd. reflexivity. }
      exact (Hb _ _ Hst). }
    assert (Hne : N.eqb o (start fr) = false).
    { apply N.eqb_neq. rewrite Hbase. intros ->. destruct (h_ops h f) eqn:Ef; try contradiction; [exact (Hof _ _ _ eq_refl)|]. unfold get_io in Hio. rewrite Ef in Hio. discriminate. }
    rewrite Hne in Hin. cbn [andb] in Hin. destruct Hin as [HL Hin]. rewrite Hn in HL. destruct outs as [|x [|]]; try discriminate. destruct (Hin 0 x eq_refl) as (m & p & row & H1 & H2 & H3).
    rewrite Hol in H1. injection H1 as <- <-. rewrite (Ho row H2) in H3. injection H3 as ->. reflexivity.
  Qed.
End Only.

(** Two loops whose results nobody uses: the one that never continues goes, the one that depends on an input stays. *)
Definition spin_acts : list (act (O := op) (M := N)) :=
  [AddChild 1%N 0%N (OFuncDefn 0 {| p_params := []; p_ins := [bit; new_sum two]; p_outs := [bit] |} true); AddChild 2%N 1%N (OInput [bit; new_sum two]); AddChild 3%N 1%N (OOutput [bit]); Connect 2%N 0 3%N 0;
   AddChild 4%N 1%N (OTailLoop [] [] [bit]); AddChild 5%N 4%N (OInput [bit]); AddChild 6%N 4%N (OOutput [new_sum two; bit]); AddChild 7%N 4%N (OTag 1 two);
   Connect 7%N 0 6%N 0; Connect 5%N 0 6%N 1; Connect 2%N 0 4%N 0;
   AddChild 8%N 1%N (OTailLoop [] [] [new_sum two]); AddChild 9%N 8%N (OInput [new_sum two]); AddChild 10%N 8%N (OOutput [new_sum two; new_sum two]);
   Connect 9%N 0 10%N 0; Connect 9%N 0 10%N 1; Connect 2%N 1 8%N 0; SetEntry 1%N].
Definition spin : hugr op N := graph_of (make spin_acts).
Definition spin_start : list (N * nat * pv N N unit) := match fold_start fold_ctx spin [] with Some p => p | None => [] end.
Example spin_accepted : validate no_types simple_ops spin = VOk.
Proof. vm_compute. reflexivity. Qed.
Example spin_folded : terminating spin (fold_facts spin spin_start) = Some [4%N] /\ folds spin [] (fold_facts spin spin_start) = true /\
  memN 4%N (h_nodes (folded spin [] (fold_facts spin spin_start))) = false /\ memN 8%N (h_nodes (folded spin [] (fold_facts spin spin_start))) = true.
Proof. vm_compute. auto. Qed.

(** [constant_fold_pass] of a module marks every function as an entry point, and yet takes the inputs of function 1 to be those of the calls it sees. *)
Definition sums_module : hugr op N := graph_of (make sums_acts).
Definition sums_module_start : list (N * nat * pv N N unit) := match fold_start fold_ctx sums_module (default_inputs sums_module) with Some p => p | None => [] end.
Definition sums_module_facts : @facts N := fold_facts sums_module sums_module_start.
Example sums_module_wf : wf sums_module.
Proof. apply built_wf. vm_compute. tauto. Qed.
Example sums_module_valid : valid no_types simple_ops sums_module.
Proof. apply validate_accepts; [exact sums_module_wf|]. vm_compute. reflexivity. Qed.
Example sums_module_wires : wires_to_break as_const any_sum sums_module sums_module_facts = Some [(3%N, 0, KExt 7%N); (10%N, 0, KExt 6%N); (11%N, 0, KExt 7%N)].
Proof. vm_compute. reflexivity. Qed.
Lemma sums_module_resolved : all_resolved sums_module sums_module_facts.
Proof. apply resolved_check; [exact (make_unused sums_acts eq_refl)|vm_compute; reflexivity]. Qed.
Lemma sums_module_entry : h_entry sums_module = 0%N /\ h_root sums_module = 0%N /\ h_ops sums_module 0%N = OModule /\ h_kids sums_module 0%N = [1%N; 4%N] /\ default_inputs (E := N) (F := N) sums_module = [(1%N, []); (4%N, [])] /\
  fold_start fold_ctx sums_module (default_inputs sums_module) = Some sums_module_start /\ is_some (sweeps N.eq_dec fold_ctx sums_module sums_module_start 60 no_facts) = true /\
  folds sums_module [1; 4]%N sums_module_facts = true /\ sums_module_start = [(3%N, 0, Top); (12%N, 0, Top)].
Proof. vm_compute. repeat split. Qed.
Example sums_module_before : computes fold_sem fold_ctx sums_module 1%N [CVal 9%N] [CVal 9%N].
Proof. apply fold_computes; [exact sums_module_wf|exact sums_module_valid|vm_compute; reflexivity|vm_compute; reflexivity]. Qed.
Lemma sums_module_io : get_io sums_module 1%N = Some (2%N, 3%N) /\ h_ops sums_module 1%N = fn 1 /\ linked_inputs sums_module 2%N 0 = [(3%N, 0)].
Proof. vm_compute. repeat split. Qed.
Lemma feeds_single (h : hugr op N) (proto : list (N * nat * pv N N unit)) f nm (g : poly) pub i o n j c : get_io h f = Some (i, o) -> h_ops h f = OFuncDefn nm g pub -> linked_inputs h i 0 = [(n, j)] -> In (n, j, Top) proto -> feeds same h proto f [c].
Proof.
  intros Hio Hop Hl Hin p c' Hc. unfold first_input. rewrite Hop. intros i' n' j' (o' & Ho) Hln. rewrite Hio in Ho. injection Ho as <- _.
  destruct p as [|p]; [|destruct p; discriminate Hc]. rewrite Hl in Hln. destruct Hln as [[= <- <-]|[]]. exists Top. split; [exact Hin|constructor].
Qed.
Lemma sums_module_feeds : feeds same sums_module sums_module_start 1%N [CVal 9%N].
Proof.
  destruct sums_module_entry as (_ & _ & _ & _ & _ & _ & _ & _ & Hst). destruct sums_module_io as (Hio & Hop & Hl).
  apply (feeds_single sums_module sums_module_start 1%N _ _ _ 2%N 3%N 3%N 0 (CVal 9%N) Hio Hop Hl). rewrite Hst. left. reflexivity.
Qed.
Lemma sums_module_foldable : foldable N.eq_dec same fold_sem fold_ctx as_const any_sum store_at no_types simple_ops sums_module sums_module_facts sums_module_start.
Proof.
  destruct sums_module_entry as (_ & _ & _ & _ & _ & _ & Hsw & _ & Hst). constructor.
  - exact sums_module_wf.
  - exact sums_module_valid.
  - constructor; [exact sums_module_wf|apply (valid_branches no_types simple_ops); exact sums_module_valid|apply fold_interprets|exact fold_loads|exact fold_order|]. rewrite Hst. intros n p v [[= _ _ <-]|[[= _ _ <-]|[]]]; constructor.
  - exact (fold_facts_result sums_module sums_module_start Hsw).
  - exact sums_module_resolved.
  - exact fold_leaves.
  - intros ws n i v. rewrite sums_module_wires. intros [= <-]. apply plain_stored. reflexivity.
Qed.
Definition sums_module_after : hugr op N := folded sums_module [1; 4]%N sums_module_facts.
Lemma sums_module_now : get_io sums_module_after 1%N = Some (2%N, 3%N) /\ h_ops sums_module_after 1%N = fn 1 /\ h_ops sums_module_after 3%N = OOutput [bit] /\ single_linked_output sums_module_after 3%N 0 = Some (14%N, 0) /\
  h_ops sums_module_after 14%N = OLoadConstant bit /\ single_linked_output sums_module_after 14%N 0 = Some (13%N, 0) /\ h_ops sums_module_after 13%N = OConst 7 bit true /\ validate no_types simple_ops sums_module_after = VOk.
Proof. vm_compute. repeat split. Qed.
Lemma toy_module (h h' : hugr op N) s proto entries : foldable N.eq_dec same fold_sem fold_ctx as_const any_sum store_at no_types simple_ops h s proto ->
  h_entry h = 0%N -> h_root h = 0%N -> h_ops h 0%N = OModule -> h_kids h 0%N = entries -> fold_toy entries s h = Some (Done h') -> wf h'.
Proof.
  intros Fo He Hr Ho Hk Hf. apply (fold_module_wf N.eq_dec same fold_sem fold_ctx as_const any_sum bit_const store_at next_node false no_types simple_ops h s proto entries h' Fo); rewrite ?He, ?Hr, ?Hk; auto.
Qed.
Lemma sums_module_done : folds sums_module [1; 4]%N sums_module_facts = true -> fold_toy [1; 4]%N sums_module_facts sums_module = Some (Done sums_module_after).
Proof. exact (folded_done sums_module [1; 4]%N sums_module_facts). Qed.
Lemma sums_module_after_wf : wf sums_module_after.
Proof.
  destruct sums_module_entry as (He & Hr & Ho & Hk & _ & _ & _ & Hf & _). pose proof (sums_module_done Hf) as Hdone.
  pose proof sums_module_foldable as Fo. revert He Hr Ho Hk Hdone Fo. generalize sums_module_after sums_module sums_module_facts sums_module_start. intros h' h s proto He Hr Ho Hk Hdone Fo.
  exact (toy_module h h' s proto _ Fo He Hr Ho Hk Hdone).
Qed.
Lemma constant_output (h : hugr op N) f nm (g : poly) pub i o l c t k ins outs : wf h -> validate no_types simple_ops h = VOk -> get_io h f = Some (i, o) -> h_ops h f = OFuncDefn nm g pub -> h_ops h o = OOutput [t] ->
  single_linked_output h o 0 = Some (l, 0) -> h_ops h l = OLoadConstant t -> single_linked_output h l 0 = Some (c, 0) -> h_ops h c = OConst k t true -> computes fold_sem fold_ctx h f ins outs -> outs = [CVal k].
Proof.
  intros Wh Hv Hio Hf Ho Hol Hl Hlc Hc. apply validate_accepts in Hv; [|exact Wh]. pose proof (valid_tidy no_types simple_ops h Wh Hv) as T.
  apply (only_result fold_sem fold_ctx h Wh T l c 0 t t k true Hl Hlc Hc f i o ins outs Hio).
  - unfold FlowModel.in_count, sig_of. rewrite Ho. reflexivity.
  - exact Hol.
  - intros a b d. rewrite Ho. discriminate.
  - rewrite Hf. exact Logic.I.
Qed.
Theorem fold_module_refuted : exists (h h' : hugr op N) proto s entries f ins outs,
  foldable N.eq_dec same fold_sem fold_ctx as_const any_sum store_at no_types simple_ops h s proto /\
  entries = map fst (default_inputs (E := N) (F := N) h) /\ In f entries /\ fold_start fold_ctx h (default_inputs h) = Some proto /\ feeds same h proto f ins /\
  fold_with as_const any_sum bit_const store_at next_node false entries s h = Some (Done h') /\ valid no_types simple_ops h' /\
  computes fold_sem fold_ctx h f ins outs /\ ~ computes fold_sem fold_ctx h' f ins outs.
Proof.
  destruct sums_module_entry as (He & Hr & Ho & Hk & Hd & Hs & Hsw & Hf & Hst).
  pose proof (sums_module_done Hf) as Hdone. destruct sums_module_now as (N1 & N2 & N3 & N4 & N5 & N6 & N7 & N8).
  assert (Hn : ~ computes fold_sem fold_ctx sums_module_after 1%N [CVal 9%N] [CVal 9%N]).
  { intros Hc. pose proof (constant_output sums_module_after 1%N _ _ _ _ _ _ _ _ _ _ _ sums_module_after_wf N8 N1 N2 N3 N4 N5 N6 N7 Hc) as Hx. discriminate. }
  pose proof (proj1 (validate_accepts no_types simple_ops sums_module_after sums_module_after_wf) N8) as Hv.
  pose proof sums_module_foldable as Fo. pose proof sums_module_feeds as Hfe. pose proof sums_module_before as Hb.
  revert Hd Hs Hdone Hn Hv Fo Hfe Hb. generalize sums_module_after sums_module sums_module_facts sums_module_start. intros h' h s proto Hd Hs Hdone Hn Hv Fo Hfe Hb.
  exists h, h', proto, s, [1%N; 4%N], 1%N, [CVal 9%N], [CVal 9%N]. split; [exact Fo|]. split; [rewrite Hd; reflexivity|]. split; [left; reflexivity|]. split; [exact Hs|]. split; [exact Hfe|]. split; [exact Hdone|]. split; [exact Hv|]. split; [exact Hb|exact Hn].
Qed.
Print Assumptions fold_module_refuted.

(** A function that calls a declared function can change: the analysis takes the results of declared functions as unreachable. *)
Definition extern_tops : list (N * nat * pv N N unit) := [(5%N, 0, Top)].
Definition extern_facts : @facts N := fold_facts extern extern_tops.
Definition extern_after : hugr op N := folded extern [] extern_facts.
Lemma extern_wf : wf extern.
Proof. apply built_wf; vm_compute; tauto. Qed.
Lemma extern_valid : valid no_types simple_ops extern.
Proof. apply validate_accepts; [exact extern_wf|vm_compute; reflexivity]. Qed.
Lemma extern_entry : fold_start fold_ctx extern [] = Some extern_tops /\ is_some (sweeps N.eq_dec fold_ctx extern extern_tops 60 no_facts) = true /\
  wires_to_break as_const any_sum extern extern_facts = Some [(4%N, 0, KExt 0%N)] /\ folds extern [] extern_facts = true /\ is_module (h_ops extern (h_entry extern)) = false /\ is_block (h_ops extern (h_entry extern)) = false.
Proof. vm_compute. repeat split. Qed.
Lemma extern_resolved : all_resolved extern extern_facts.
Proof. apply resolved_check; [exact (make_unused extern_acts eq_refl)|vm_compute; reflexivity]. Qed.
Lemma extern_foldable : foldable N.eq_dec same fold_sem fold_ctx as_const any_sum store_at no_types simple_ops extern extern_facts extern_tops.
Proof.
  destruct extern_entry as (_ & Hsw & Hw & _). constructor.
  - exact extern_wf.
  - exact extern_valid.
  - constructor; [exact extern_wf|apply (valid_branches no_types simple_ops); exact extern_valid|apply fold_interprets|exact fold_loads|exact fold_order|]. intros n p v [[= _ _ <-]|[]]. constructor.
  - exact (fold_facts_result extern extern_tops Hsw).
  - exact extern_resolved.
  - exact fold_leaves.
  - intros ws n i v. rewrite Hw. intros [= <-]. apply plain_stored. reflexivity.
Qed.
Lemma extern_done : folds extern [] extern_facts = true -> fold_toy [] extern_facts extern = Some (Done extern_after).
Proof. exact (folded_done extern [] extern_facts). Qed.
Lemma toy_keeps_wf (h h' : hugr op N) s proto : foldable N.eq_dec same fold_sem fold_ctx as_const any_sum store_at no_types simple_ops h s proto ->
  is_module (h_ops h (h_entry h)) = false -> is_block (h_ops h (h_entry h)) = false -> fold_toy [] s h = Some (Done h') -> wf h'.
Proof. intros Fo Hm Hb Hf. exact (fold_keeps_wf N.eq_dec same fold_sem fold_ctx as_const any_sum bit_const store_at next_node false no_types simple_ops h s proto h' Fo Hm Hb Hf). Qed.
Lemma extern_after_wf : wf extern_after.
Proof.
  destruct extern_entry as (_ & _ & _ & Hf & Hm & Hb). pose proof (extern_done Hf) as Hdone. pose proof extern_foldable as Fo.
  revert Hm Hb Hdone Fo. generalize extern_after extern extern_facts extern_tops. intros h' h s proto Hm Hb Hdone Fo. exact (toy_keeps_wf h h' s proto Fo Hm Hb Hdone).
Qed.
Lemma extern_now : get_io extern_after 2%N = Some (3%N, 4%N) /\ h_ops extern_after 2%N = OFuncDefn 1 {| p_params := []; p_ins := [new_sum two]; p_outs := [bit] |} true /\ h_ops extern_after 4%N = OOutput [bit] /\ single_linked_output extern_after 4%N 0 = Some (16%N, 0) /\
  h_ops extern_after 16%N = OLoadConstant bit /\ single_linked_output extern_after 16%N 0 = Some (15%N, 0) /\ h_ops extern_after 15%N = OConst 0 bit true /\ validate no_types simple_ops extern_after = VOk.
Proof. vm_compute. repeat split. Qed.
Lemma extern_feeds : feeds same extern extern_tops 2%N [bitval 0].
Proof.
  assert (H : get_io extern 2%N = Some (3%N, 4%N) /\ h_ops extern 2%N = OFuncDefn 1 {| p_params := []; p_ins := [new_sum two]; p_outs := [bit] |} true /\ linked_inputs extern 3%N 0 = [(5%N, 0)]) by (vm_compute; repeat split).
  destruct H as (Hio & Hop & Hl). apply (feeds_single extern extern_tops 2%N _ _ _ 3%N 4%N 5%N 0 (bitval 0) Hio Hop Hl). left. reflexivity.
Qed.
Example extern_before : computes fold_sem fold_ctx extern 2%N [bitval 0] [CVal 8%N].
Proof.
  set (fr0 := new_frame 2%N 3%N [bitval 0]).
  set (fr1 := enter extern fr0 6%N 7%N ([] ++ [])).
  set (fr2 := put fr1 9%N [CVal 8%N]).
  set (fr3 := put fr2 5%N [CVal 8%N]).
  exists 3%N, 4%N, fr3. split; [vm_compute; reflexivity|]. split; [vm_compute; repeat constructor|]. split.
  - apply all_more with (b := [(fr2, None)]).
    + apply all_more with (b := [(fr1, None)]).
      * apply all_more with (b := [(fr0, None)]); [apply all_none|]. left. apply s_local.
        eapply s_cond_in with (n := 5%N) (k := 0) (rows := two) (oi := []) (ou := [bit]) (o := 8%N) (r := []).
        -- split; [vm_compute; tauto|]. split; [|vm_compute; reflexivity]. left. exists 2%N, 3%N, 4%N, [bitval 0]. vm_compute. tauto.
        -- vm_compute. reflexivity.
        -- unfold inputs. cbn [start fr0 new_frame N.eqb andb Pos.eqb]. split; [vm_compute; reflexivity|]. intros [|[|i]] c Hc; try discriminate Hc. injection Hc as <-.
           exists 3%N, 0, [bitval 0]. split; [vm_compute; reflexivity|]. split; reflexivity.
        -- vm_compute. reflexivity.
        -- vm_compute. reflexivity.
        -- vm_compute. reflexivity.
        -- vm_compute. reflexivity.
        -- reflexivity.
        -- reflexivity.
        -- vm_compute. reflexivity.
      * right. eapply s_extern with (f := 1%N) (ins := []).
        -- split; [vm_compute; tauto|]. split; [|vm_compute; reflexivity]. left. exists 6%N, 7%N, 8%N, []. vm_compute. tauto.
        -- eapply c_direct; [vm_compute; reflexivity| |vm_compute; reflexivity]. unfold inputs. cbn [start fr0 fr1 enter new_frame N.eqb andb Pos.eqb]. split; [vm_compute; reflexivity|]. intros [|i] c Hc; discriminate Hc.
        -- vm_compute. reflexivity.
        -- reflexivity.
        -- vm_compute. reflexivity.
    + left. apply s_local. eapply s_cond_out with (n := 5%N) (k := 0) (rows := two) (oi := []) (ou := [bit]) (case := 6%N) (i := 7%N) (o := 8%N) (cs := []) (rest := []).
      * split; [vm_compute; tauto|]. split; [|vm_compute; reflexivity]. left. exists 2%N, 3%N, 4%N, [bitval 0]. vm_compute. tauto.
      * vm_compute. reflexivity.
      * unfold inputs. cbn [start fr0 fr1 fr2 put enter new_frame N.eqb andb Pos.eqb]. split; [vm_compute; reflexivity|]. intros [|[|i]] c Hc; try discriminate Hc. injection Hc as <-.
        exists 3%N, 0, [bitval 0]. split; [vm_compute; reflexivity|]. split; vm_compute; reflexivity.
      * vm_compute. reflexivity.
      * vm_compute. reflexivity.
      * vm_compute. reflexivity.
      * vm_compute. discriminate.
      * unfold inputs. cbn [start fr0 fr1 fr2 put enter new_frame N.eqb andb Pos.eqb]. split; [vm_compute; reflexivity|]. intros [|[|i]] c Hc; try discriminate Hc. injection Hc as <-.
        exists 9%N, 0, [CVal 8%N]. split; [vm_compute; reflexivity|]. split; vm_compute; reflexivity.
      * vm_compute. reflexivity.
  - unfold inputs. cbn [start fr0 fr1 fr2 fr3 put enter new_frame N.eqb andb Pos.eqb]. split; [vm_compute; reflexivity|]. intros [|[|i]] c Hc; try discriminate Hc. injection Hc as <-.
    exists 5%N, 0, [CVal 8%N]. split; [vm_compute; reflexivity|]. split; vm_compute; reflexivity.
Qed.
Theorem fold_extern_refuted : exists (h h' : hugr op N) proto s f ins outs,
  foldable N.eq_dec same fold_sem fold_ctx as_const any_sum store_at no_types simple_ops h s proto /\ h_entry h = f /\
  fold_start fold_ctx h [] = Some proto /\ feeds same h proto f ins /\
  fold_with as_const any_sum bit_const store_at next_node false [] s h = Some (Done h') /\ valid no_types simple_ops h' /\
  computes fold_sem fold_ctx h f ins outs /\ ~ computes fold_sem fold_ctx h' f ins outs.
Proof.
  destruct extern_entry as (Hs & _ & _ & Hf & _). pose proof (extern_done Hf) as Hdone. destruct extern_now as (N1 & N2 & N3 & N4 & N5 & N6 & N7 & N8).
  assert (He : h_entry extern = 2%N) by (vm_compute; reflexivity).
  assert (Hn : ~ computes fold_sem fold_ctx extern_after 2%N [bitval 0] [CVal 8%N]).
  { intros Hc. pose proof (constant_output extern_after 2%N _ _ _ _ _ _ _ _ _ _ _ extern_after_wf N8 N1 N2 N3 N4 N5 N6 N7 Hc) as Hx. discriminate Hx. }
  pose proof (proj1 (validate_accepts no_types simple_ops extern_after extern_after_wf) N8) as Hv.
  pose proof extern_foldable as Fo. pose proof extern_feeds as Hfe. pose proof extern_before as Hb. clear N1 N2 N3 N4 N5 N6 N7 N8 Hf.
  revert Hs He Hdone Hn Hv Fo Hfe Hb. generalize extern_after extern extern_facts extern_tops. intros h' h s proto Hs He Hdone Hn Hv Fo Hfe Hb.
  exists h, h', proto, s, 2%N, [bitval 0], [CVal 8%N]. split; [exact Fo|]. split; [exact He|]. split; [exact Hs|]. split; [exact Hfe|]. split; [exact Hdone|]. split; [exact Hv|]. split; [exact Hb|exact Hn].
Qed.
Print Assumptions fold_extern_refuted.
