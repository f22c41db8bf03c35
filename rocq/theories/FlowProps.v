(** The dataflow analysis describes all executions (claim C50). *)
From Coq Require Import List Bool NArith Arith Lia.
From Verif Require Import PValModel TypesModel GraphModel GraphSpec PValSpec GraphProofs OpModel DeadModel DeadProps InlineModel ReplaceModel ValidModel ValidSpec ValidProps FlowModel FlowSpec FlowProofs FlowSound.
Import ListNotations.
Local Notation wf := PValSpec.wf.

Section Theorems.
  Context {W V E F M : Type}.
  Variable veq : forall a b : V, {a = b} + {a <> b}.
  Variable meaning : V -> W.
  Variable sem : @semantics W E F.
  Variable ctx : @context V E F.
  Variable h : hugr op M.

  (** Whatever order the rules are applied in: every value that a node has put on an output, and every value that has arrived at
      a node, is allowed by what the analysis says about the wire; cases and blocks that are entered are said to be
      reachable.  This holds in the frame that the run started with and in those of calls, except for those made (directly
      or not) by an indirect call of which the function is unknown. *)
  Theorem analysis_sound proto s e cs outer st fr :
    sensible meaning sem ctx h proto -> result ctx h veq proto s -> reaches meaning sem ctx h proto s e cs outer st -> tracked h s st fr ->
    (forall m p row c, ~ first_input h e m -> env fr m = Some row -> nth_error row p = Some c -> out_allows meaning s m p c) /\
    (forall n ins i c, inputs h fr n ins -> nth_error ins i = Some c -> in_allows meaning s n i c) /\
    (forall cfg b, pc fr cfg = Some b -> In (cfg, b) (f_block s)) /\
    (forall n rows oi ou case i o, h_ops h n = OConditional rows oi ou -> In case (h_kids h n) -> is_case (h_ops h case) = true ->
       get_io h case = Some (i, o) -> env fr i <> None -> i <> start fr -> ~ first_input h e i -> outer i = None -> In (n, case) (f_case s)).
  Proof.
    intros [Q1 Q2 Q3 Q4 Q5 Q6] [(hist & Hrun) (fs & Hder & Hstab)] (fr0 & He & Hst & Hfeed & Hout & Hsteps) (above & r & below & Heq & Hno).
    assert (G : good_stack meaning h s e outer [(fr0, None)]).
    { eapply (starts_ok veq meaning ctx h proto s hist fs); eassumption. }
    assert (G' : good_stack meaning h s e outer st).
    { eapply (steps_ok veq meaning sem ctx h proto s hist fs); eassumption. }
    pose proof (good_all meaning h s e outer st G' above fr r below Heq Hno) as Hok.
    assert (Hin : forall hid given, frame_ok meaning h s hid given fr -> forall n ins i c, inputs h fr n ins -> nth_error ins i = Some c -> in_allows meaning s n i c).
    { intros hid given K n ins i c Hi Hc. destruct (inputs_ok meaning h s hid given fr n ins K Hi) as [_ H]. apply H. exact Hc. }
    destruct r as [n|]; cbn in Hok.
    - split; [intros m p row c _ Hm Hc; eapply (k_out _ _ _ _ _ _ Hok); [tauto|eassumption|eassumption]|]. split; [eapply Hin; exact Hok|].
      split; [apply (k_pc _ _ _ _ _ _ Hok)|]. intros. eapply (k_case _ _ _ _ _ _ Hok); eassumption.
    - destruct Hok as [Hs Hok]. split; [intros m p row c Hf Hm Hc; eapply (k_out _ _ _ _ _ _ Hok); eassumption|]. split; [eapply Hin; exact Hok|].
      split; [apply (k_pc _ _ _ _ _ _ Hok)|]. intros n' rows oi ou case i o H1 H2 H3 H4 H5 H6 H7 H8.
      eapply (k_case _ _ _ _ _ _ Hok); try eassumption. intros [Hg|[Hg|Hg]]; congruence || contradiction.
  Qed.

  (** The values of the given inputs are allowed by the initial values, those of the other inputs as well. *)
  Theorem prepopulated_inputs_sound pr e given proto cs outer (fr : @frame W) :
    prepopulate_inputs h pr e given = Prepared proto -> In e (h_nodes h) -> starts h e cs outer fr ->
    (forall p v c, In (p, v) given -> nth_error cs p = Some c -> allows meaning v c) ->
    feeds meaning h proto e cs.
  Proof. apply prepopulate_feeds. Qed.

  (** A run with values for the inputs of the entrypoint, or without any initial values. *)
  Theorem run_inputs_sound pr given proto cs outer (fr : @frame W) :
    run_proto h pr given = Prepared proto -> In (h_entry h) (h_nodes h) -> starts h (h_entry h) cs outer fr ->
    (given <> [] \/ forall p v, ~ In (h_entry h, p, v) pr) ->
    (forall p v c, In (p, v) given -> nth_error cs p = Some c -> allows meaning v c) ->
    feeds meaning h proto (h_entry h) cs.
  Proof.
    unfold run_proto. intros H He Hs Hg Hv. destruct (is_module (h_ops h (h_entry h))) eqn:Em.
    - exfalso. destruct Hs as (_ & _ & _ & Hs). destruct (h_ops h (h_entry h)); (discriminate || contradiction).
    - destruct (_ || _) eqn:Ec.
      + destruct (prepopulate_inputs h pr (h_entry h) given) eqn:Ep; try discriminate. injection H as ->. eapply prepopulate_feeds; eassumption.
      + exfalso. apply orb_false_iff in Ec as [E1 E2]. apply negb_false_iff in E1. apply negb_false_iff in E2. destruct Hg as [Hg|Hg].
        * destruct given; [congruence|discriminate].
        * apply existsb_exists in E2 as ([[n p] v] & Hin & Hn). apply N.eqb_eq in Hn. cbn in Hn. subst n. exact (Hg p v Hin).
  Qed.

  (** What the results say can be relied on. *)
  Theorem read_out_wire_sound proto s e cs outer st fr n p v row c :
    sensible meaning sem ctx h proto -> result ctx h veq proto s -> reaches meaning sem ctx h proto s e cs outer st -> tracked h s st fr ->
    read_out_wire h s n p = Some v -> ~ first_input h e n -> env fr n = Some row -> nth_error row p = Some c -> allows meaning v c.
  Proof.
    intros Q R X T Hr Hf Hm Hc. destruct (analysis_sound _ _ _ _ _ _ _ Q R X T) as (H & _). destruct (H n p row c Hf Hm Hc) as (w & Hw & Ha).
    unfold read_out_wire in Hr. destruct (entry_desc h n); [|discriminate]. congruence.
  Qed.
  Theorem tail_loop_sound proto s e cs outer st fr n t i o k vs rest :
    sensible meaning sem ctx h proto -> result ctx h veq proto s -> reaches meaning sem ctx h proto s e cs outer st -> tracked h s st fr ->
    tail_loop_terminates h s n = Some (Some t) -> get_io h n = Some (i, o) -> inputs h fr o (CSum k vs :: rest) ->
    (k = 1%N -> t <> NeverBreaks) /\ (k = 0%N -> t <> NeverContinues).
  Proof.
    intros Q R X T Ht Hio Hin. destruct (analysis_sound _ _ _ _ _ _ _ Q R X T) as (_ & H & _). destruct (H o _ 0 _ Hin eq_refl) as (v & Hv & Ha).
    assert (Wv : wf v). { destruct Q as [Q1 Q2 Q3 Q4 Q5 Q6]. destruct R as [(hist & Hrun) _]. destruct (run_good veq ctx h proto _ Q5 Q6 Hrun s hist eq_refl) as [G _]. eapply wfi; [apply (g_wf _ G)|exact Hv]. }
    unfold tail_loop_terminates in Ht. destruct (h_ops h n); try discriminate. rewrite Hio in Ht. destruct (entry_desc h o); [|discriminate]. rewrite Hv in Ht. injection Ht as <-.
    split; intros ->; rewrite (supports_allows meaning v _ vs Wv Ha); destruct (supports_tag v _); discriminate.
  Qed.
  Theorem case_reachable_sound proto s e cs outer st fr n rows oi ou case i o :
    sensible meaning sem ctx h proto -> result ctx h veq proto s -> reaches meaning sem ctx h proto s e cs outer st -> tracked h s st fr ->
    case_reachable h s case = Some false -> In case (descendants h (h_entry h)) ->
    h_ops h n = OConditional rows oi ou -> In case (h_kids h n) -> get_io h case = Some (i, o) ->
    i <> start fr -> ~ first_input h e i -> outer i = None -> env fr i = None.
  Proof.
    intros Q R X T Hc Hd Hop Hk Hio H1 H2 H3. destruct (analysis_sound _ _ _ _ _ _ _ Q R X T) as (_ & _ & _ & H).
    unfold case_reachable in Hc. destruct (is_case (h_ops h case)) eqn:Ecase; [|discriminate].
    destruct (get_parent h case) as [p|] eqn:Ep; [|discriminate]. unfold get_parent in Ep. destruct (_ && _); [|discriminate].
    assert (Hpar : h_parent h case = Some n) by (apply (wf_kids _ (q_wf _ _ _ _ _ Q)); exact Hk). rewrite Hpar in Ep. injection Ep as <-. rewrite Hop in Hc.
    unfold entry_desc in Hc. rewrite (proj2 (memN_iff _ _) Hd) in Hc. injection Hc as Hc.
    destruct (env fr i) eqn:Ee; [|reflexivity]. exfalso.
    assert (Hin : In (n, case) (f_case s)) by (eapply H; try eassumption; congruence). apply pair_in in Hin. cbn in Hc. congruence.
  Qed.
  Theorem bb_reachable_sound proto s e cs outer st fr cfg b :
    sensible meaning sem ctx h proto -> result ctx h veq proto s -> reaches meaning sem ctx h proto s e cs outer st -> tracked h s st fr ->
    bb_reachable h s b = Some false -> In b (descendants h (h_entry h)) -> In b (h_kids h cfg) -> pc fr cfg <> Some b.
  Proof.
    intros Q R X T Hc Hd Hk Hpc. destruct (analysis_sound _ _ _ _ _ _ _ Q R X T) as (_ & _ & H & _). specialize (H cfg b Hpc). apply pair_in in H.
    unfold bb_reachable in Hc. destruct (get_parent h b) as [p|] eqn:Ep; [|discriminate]. unfold get_parent in Ep. destruct (_ && _); [|discriminate].
    assert (Hpar : h_parent h b = Some cfg) by (apply (wf_kids _ (q_wf _ _ _ _ _ Q)); exact Hk). rewrite Hpar in Ep. injection Ep as <-.
    destruct (is_cfg (h_ops h cfg)); [|discriminate]. unfold entry_desc in Hc. rewrite (proj2 (memN_iff _ _) Hd), H in Hc.
    destruct (h_ops h b); discriminate.
  Qed.

  (** A value that the analysis knows is the only one that can occur; nothing is ever put on a wire of value bottom. *)
  Theorem known_value proto s e cs outer st fr n p v row c :
    sensible meaning sem ctx h proto -> result ctx h veq proto s -> reaches meaning sem ctx h proto s e cs outer st -> tracked h s st fr ->
    f_out s n p = Some (Val v) -> ~ first_input h e n -> env fr n = Some row -> nth_error row p = Some c -> c = CVal (meaning v).
  Proof.
    intros Q R X T Hr Hf Hm Hc. destruct (analysis_sound _ _ _ _ _ _ _ Q R X T) as (H & _). destruct (H n p row c Hf Hm Hc) as (w & Hw & Ha).
    rewrite Hr in Hw. injection Hw as <-. inversion Ha. reflexivity.
  Qed.
  Theorem bottom_is_dead proto s e cs outer st fr n p row :
    sensible meaning sem ctx h proto -> result ctx h veq proto s -> reaches meaning sem ctx h proto s e cs outer st -> tracked h s st fr ->
    f_out s n p = Some Bottom -> ~ first_input h e n -> env fr n = Some row -> nth_error row p = None.
  Proof.
    intros Q R X T Hr Hf Hm. destruct (analysis_sound _ _ _ _ _ _ _ Q R X T) as (H & _). destruct (nth_error row p) as [c|] eqn:Ec; [|reflexivity].
    destruct (H n p row c Hf Hm Ec) as (w & Hw & Ha). rewrite Hr in Hw. injection Hw as <-. inversion Ha.
  Qed.

  (** Repeated sweeps are a run. *)
  Lemma add_all_run proto fs s' : forall l s hist old, run veq ctx h proto (s :: hist) -> In old (s :: hist) -> derive ctx h proto old = Some fs -> incl l fs ->
    add_all veq s l = Some s' -> exists hist', run veq ctx h proto (s' :: hist').
  Proof.
    induction l as [|f l IH]; intros s hist old Hr Ho Hd Hi Hadd; cbn [add_all] in Hadd.
    - injection Hadd as <-. eauto.
    - destruct (add_fact veq s f) as [[s1 c]|] eqn:Ea; [|discriminate Hadd]. apply (IH s1 (s :: hist) old).
      + eapply run_add; try eassumption. apply Hi. left. reflexivity.
      + right. exact Ho.
      + exact Hd.
      + intros x Hx. apply Hi. right. exact Hx.
      + exact Hadd.
  Qed.
  Theorem sweeps_result proto : forall fuel s hist s', run veq ctx h proto (s :: hist) -> sweeps veq ctx h proto fuel s = Some s' -> result ctx h veq proto s'.
  Proof.
    induction fuel as [|fuel IH]; intros s hist s' Hr Hs; cbn [sweeps] in Hs; [discriminate Hs|]. destruct (derive ctx h proto s) as [fs|] eqn:Ed; [|discriminate Hs].
    destruct (forallb (unchanged veq s) fs) eqn:Ef.
    - injection Hs as <-. split; [eauto|]. exists fs. split; [exact Ed|]. intros f Hf. rewrite forallb_forall in Ef. specialize (Ef f Hf). unfold unchanged in Ef.
      destruct (add_fact veq s f) as [[s1 []]|]; try discriminate. eauto.
    - destruct (add_all veq s fs) as [s1|] eqn:Ea; [|discriminate Hs].
      destruct (add_all_run proto fs s1 fs s hist s Hr (or_introl eq_refl) Ed (incl_refl _) Ea) as (hist' & Hr'). eapply IH; eassumption.
  Qed.
End Theorems.
Print Assumptions analysis_sound.
Print Assumptions prepopulated_inputs_sound.
Print Assumptions run_inputs_sound.
Print Assumptions read_out_wire_sound.
Print Assumptions tail_loop_sound.
Print Assumptions case_reachable_sound.
Print Assumptions bb_reachable_sound.
Print Assumptions known_value.
Print Assumptions bottom_is_dead.
Print Assumptions sweeps_result.

(** ** Examples *)
(** Numbers; extension operations add one to a number and pass on everything else; the constant is 7. *)
Definition toy_ctx : @context N N N :=
  {| tuple_kind := fun _ _ => None;
     interpret := fun _ ins outs => match ins with [Val x] => [Val (x + 1)%N] | _ => outs end;
     from_opaque := fun _ e => Some e; from_hugr := fun _ _ => None; content := fun _ => KExt 7%N |}.
Definition toy_sem : @semantics N N N :=
  {| op_sem := fun _ ins outs => match ins with [CVal x] => outs = [CVal (x + 1)%N] | [c] => outs = [c] | _ => False end;
     call_value := fun _ _ _ => False; call_extern := fun _ _ outs => outs = [CVal 8%N]; ext_value := fun e => e; fun_value := fun f => f |}.
Definition same (x : N) : N := x.

Definition branches_b {M} (h : hugr op M) : bool :=
  forallb (fun b => negb (is_block (h_ops h b)) || forallb (fun p => Nat.eqb (length (linked_inputs h b p)) 1) (seq 0 (h_out h b))) (h_nodes h).
Lemma branches_check {M} (h : hugr op M) : branches_b h = true -> branches_ok h.
Proof.
  intros H b Hb Hblk p Hp. unfold branches_b in H. rewrite forallb_forall in H. specialize (H b Hb). rewrite Hblk in H. cbn in H.
  rewrite forallb_forall in H. apply Nat.eqb_eq. apply H. apply in_seq. lia.
Qed.
Lemma tops_allow (vs : list (conc N N unit)) : Forall2 (allows same) (repeat Top (length vs)) vs.
Proof. induction vs; cbn; constructor; [constructor|assumption]. Qed.
Lemma toy_sensible (h : hugr op N) proto : GraphSpec.wf h -> branches_b h = true -> (forall n p v, In (n, p, v) proto -> wf v) -> sensible same toy_sem toy_ctx h proto.
Proof.
  intros W B P. constructor; [exact W|apply branches_check; exact B| | | |exact P].
  - intros n ins outs vs Hop HL HF. cbn in Hop. cbn [interpret toy_ctx].
    assert (T : Forall2 (allows same) (repeat Top (out_count h n)) outs) by (rewrite <- HL; apply tops_allow).
    destruct vs as [|[| |x| |] [|]]; try exact T. inversion HF as [|? ? ? ? Hx HF']; subst. inversion HF'; subst. inversion Hx; subst. cbn in Hop. rewrite Hop. constructor; [|constructor].
    apply (a_val same (x + 1)%N).
  - split; [intros loc e v [= <-]; reflexivity|discriminate].
  - intros n ins outs Hi Ho. cbn. destruct ins as [|[| |x| |] [|]]; try exact Ho. repeat constructor.
Qed.

Definition facts_of (h : hugr op N) (pr : prepopulated (V := N)) : @facts N :=
  match pr with Prepared proto => match sweeps N.eq_dec toy_ctx h proto 60 no_facts with Some s => s | None => no_facts end | _ => no_facts end.
Definition proto_of (pr : prepopulated (V := N)) : list (N * nat * pv N N unit) := match pr with Prepared proto => proto | _ => [] end.
Lemma facts_result (h : hugr op N) pr : (exists p, pr = Prepared p) -> is_some (sweeps N.eq_dec toy_ctx h (proto_of pr) 60 no_facts) = true ->
  result toy_ctx h N.eq_dec (proto_of pr) (facts_of h pr).
Proof.
  intros (p & ->) H. cbn [proto_of facts_of] in *. destruct (sweeps N.eq_dec toy_ctx h p 60 no_facts) as [s|] eqn:Es; [|discriminate H].
  eapply sweeps_result; [apply run_start|exact Es].
Qed.

(** The function of [rich_acts] applied to 5: the tag 1 selects the second case, which gives what the call returned (6); the first
    block of the CFG branches to itself for ever. *)
Definition rich : hugr op N := graph_of (make rich_acts).
Definition rich_start := run_proto rich [] [(0, Val 5%N)].
Definition rich_facts : @facts N := facts_of rich rich_start.
Example rich_result : result toy_ctx rich N.eq_dec (proto_of rich_start) rich_facts.
Proof. apply facts_result; [eexists; vm_compute; reflexivity|vm_compute; reflexivity]. Qed.
Example rich_reads :
  read_out_wire rich rich_facts 10%N 0 = Some (Val 6%N) /\ read_out_wire rich rich_facts 12%N 0 = Some (Val 7%N) /\
  read_out_wire rich rich_facts 7%N 0 = Some (Val 6%N) /\ read_out_wire rich rich_facts 14%N 0 = Some (PSum [(1%N, [])]) /\
  read_out_wire rich rich_facts 15%N 0 = Some (Val 6%N) /\
  case_reachable rich rich_facts 16%N = Some false /\ case_reachable rich rich_facts 19%N = Some true /\
  bb_reachable rich rich_facts 23%N = Some true /\ bb_reachable rich rich_facts 25%N = Some false /\ bb_reachable rich rich_facts 24%N = Some false /\
  read_out_wire rich rich_facts 22%N 0 = Some Bottom /\ read_out_wire rich rich_facts 2%N 0 = None.
Proof. vm_compute. repeat split. Qed.

(** ** Where the analysis is wrong *)
Definition fr_of (e : N) (cs : list (conc N N unit)) (l : list (N * list (conc N N unit))) : @frame N :=
  {| start := e; args := cs; env := fun n => option_map snd (find (fun x => N.eqb n (fst x)) l); pc := fun _ => None |}.

Definition bitval (k : N) : conc N N unit := CSum k [].

(** A conditional that calls a declared function in one case and loads the constant 7 in the other. *)
Definition extern_acts : list (act (O := op) (M := N)) :=
  let f := {| p_params := []; p_ins := []; p_outs := [bit] |} in
  [AddChild 1%N 0%N (OFuncDecl 0 f true);
   AddChild 2%N 0%N (OFuncDefn 1 {| p_params := []; p_ins := [new_sum two]; p_outs := [bit] |} true);
   AddChild 3%N 2%N (OInput [new_sum two]); AddChild 4%N 2%N (OOutput [bit]);
   AddChild 5%N 2%N (OConditional two [] [bit]);
   AddChild 6%N 5%N (OCase ([], [bit])); AddChild 7%N 6%N (OInput []); AddChild 8%N 6%N (OOutput [bit]); AddChild 9%N 6%N (OCall f [] ([], [bit]));
   Connect 1%N 0 9%N 0; Connect 9%N 0 8%N 0;
   AddChild 10%N 5%N (OCase ([], [bit])); AddChild 11%N 10%N (OInput []); AddChild 12%N 10%N (OOutput [bit]);
   AddChild 13%N 10%N (OConst 0 bit true); AddChild 14%N 10%N (OLoadConstant bit); Connect 13%N 0 14%N 0; Connect 14%N 0 12%N 0;
   Connect 3%N 0 5%N 0; Connect 5%N 0 4%N 0; SetEntry 2%N].
Definition extern : hugr op N := graph_of (make extern_acts).
Definition extern_start : prepopulated (V := N) := run_proto extern [] [].

Theorem declared_function_refuted : exists (h : hugr op N) proto s e cs fr0 fr n p v row c,
  GraphSpec.wf h /\ validate no_types simple_ops h = VOk /\ sensible same toy_sem toy_ctx h proto /\ result toy_ctx h N.eq_dec proto s /\
  run_proto h [] [] = Prepared proto /\ starts h e cs (fun _ => None) fr0 /\ feeds same h proto e cs /\ all_steps toy_sem toy_ctx h [(fr0, None)] [(fr, None)] /\
  read_out_wire h s n p = Some (Val v) /\ env fr n = Some row /\ nth_error row p = Some c /\ c <> CVal (same v).
Proof.
  assert (W : GraphSpec.wf extern) by (apply built_wf; vm_compute; tauto).
  set (fr0 := fr_of 2%N [bitval 0] [(3%N, [bitval 0])]).
  set (fr1 := enter extern fr0 6%N 7%N ([] ++ [])).
  set (fr2 := put fr1 9%N [CVal 8%N]).
  set (fr3 := put fr2 5%N [CVal 8%N]).
  assert (S0 : starts extern 2%N [bitval 0] (fun _ => None) fr0).
  { split; [reflexivity|]. split; [reflexivity|]. split; [reflexivity|].
    replace (h_ops extern 2%N) with (OFuncDefn 1%N {| p_params := []; p_ins := [new_sum two]; p_outs := [bit] |} true) by (vm_compute; reflexivity).
    exists 3%N, 4%N. split; [vm_compute; reflexivity|]. split; [vm_compute; reflexivity|]. intros n. unfold fr0, fr_of. cbn. destruct (N.eqb n 3); reflexivity. }
  assert (P0 : forall n p v, In (n, p, v) (proto_of extern_start) -> wf v).
  { intros n p v H. vm_compute in H. repeat destruct H as [H|H]; try contradiction; injection H as _ _ <-; constructor. }
  exists extern, (proto_of extern_start), (facts_of extern extern_start), 2%N, [bitval 0], fr0, fr3, 5%N, 0, 7%N, [CVal 8%N], (CVal 8%N).
  split; [exact W|]. split; [vm_compute; reflexivity|]. split; [apply toy_sensible; [exact W|vm_compute; reflexivity|exact P0]|].
  split; [apply facts_result; [eexists; vm_compute; reflexivity|vm_compute; reflexivity]|]. split; [vm_compute; reflexivity|].
  split; [exact S0|]. split.
  { eapply run_inputs_sound with (pr := []) (given := []) (h := extern); [vm_compute; reflexivity|vm_compute; tauto|exact S0|right; intros p v []|intros p v c []]. }
  split; [|split; [vm_compute; reflexivity|split; [vm_compute; reflexivity|split; [reflexivity|discriminate]]]].
  apply all_more with (b := [(fr2, None)]).
  - apply all_more with (b := [(fr1, None)]).
    + apply all_more with (b := [(fr0, None)]); [apply all_none|]. left. apply s_local.
      eapply s_cond_in with (n := 5%N) (k := 0) (rows := two) (oi := []) (ou := [bit]) (o := 8%N) (r := []).
      * split; [vm_compute; tauto|]. split; [|vm_compute; reflexivity]. left. exists 2%N, 3%N, 4%N, [bitval 0]. vm_compute. tauto.
      * vm_compute. reflexivity.
      * unfold inputs. cbn [start fr0 fr_of N.eqb andb Pos.eqb]. split; [vm_compute; reflexivity|]. intros [|[|i]] c Hc; try discriminate. injection Hc as <-.
        exists 3%N, 0, [bitval 0]. split; [vm_compute; reflexivity|]. split; reflexivity.
      * vm_compute. reflexivity.
      * vm_compute. reflexivity.
      * vm_compute. reflexivity.
      * vm_compute. reflexivity.
      * reflexivity.
      * reflexivity.
      * vm_compute. reflexivity.
    + right. eapply s_extern with (f := 1%N) (ins := []).
      * split; [vm_compute; tauto|]. split; [|vm_compute; reflexivity]. left. exists 6%N, 7%N, 8%N, []. vm_compute. tauto.
      * eapply c_direct; [vm_compute; reflexivity| |vm_compute; reflexivity]. unfold inputs. cbn [start fr0 fr1 enter fr_of N.eqb andb Pos.eqb]. split; [vm_compute; reflexivity|]. intros [|i] c Hc; discriminate.
      * vm_compute. reflexivity.
      * reflexivity.
      * vm_compute. reflexivity.
  - left. apply s_local. eapply s_cond_out with (n := 5%N) (k := 0) (rows := two) (oi := []) (ou := [bit]) (case := 6%N) (i := 7%N) (o := 8%N) (cs := []) (rest := []).
    + split; [vm_compute; tauto|]. split; [|vm_compute; reflexivity]. left. exists 2%N, 3%N, 4%N, [bitval 0]. vm_compute. tauto.
    + vm_compute. reflexivity.
    + unfold inputs. cbn [start fr0 fr1 fr2 put enter fr_of N.eqb andb Pos.eqb]. split; [vm_compute; reflexivity|]. intros [|[|i]] c Hc; try discriminate. injection Hc as <-.
      exists 3%N, 0, [bitval 0]. split; [vm_compute; reflexivity|]. split; vm_compute; reflexivity.
    + vm_compute. reflexivity.
    + vm_compute. reflexivity.
    + vm_compute. reflexivity.
    + vm_compute. discriminate.
    + unfold inputs. cbn [start fr0 fr1 fr2 put enter fr_of N.eqb andb Pos.eqb]. split; [vm_compute; reflexivity|]. intros [|[|i]] c Hc; try discriminate. injection Hc as <-.
      exists 9%N, 0, [CVal 8%N]. split; [vm_compute; reflexivity|]. split; vm_compute; reflexivity.
    + vm_compute. reflexivity.
Qed.
Print Assumptions declared_function_refuted.

(** Nothing is said about the outputs of the [Input] node of the function that the run starts in. *)
Theorem entry_input_refuted : exists (h : hugr op N) proto s e cs fr n p row c,
  GraphSpec.wf h /\ validate no_types simple_ops h = VOk /\ sensible same toy_sem toy_ctx h proto /\ result toy_ctx h N.eq_dec proto s /\
  run_proto h [] [] = Prepared proto /\ e = h_entry h /\ starts h e cs (fun _ => None) fr /\ feeds same h proto e cs /\
  read_out_wire h s n p = Some Bottom /\ env fr n = Some row /\ nth_error row p = Some c.
Proof.
  assert (W : GraphSpec.wf extern) by (apply built_wf; vm_compute; tauto).
  set (fr0 := fr_of 2%N [bitval 0] [(3%N, [bitval 0])]).
  assert (S0 : starts extern 2%N [bitval 0] (fun _ => None) fr0).
  { split; [reflexivity|]. split; [reflexivity|]. split; [reflexivity|].
    replace (h_ops extern 2%N) with (OFuncDefn 1%N {| p_params := []; p_ins := [new_sum two]; p_outs := [bit] |} true) by (vm_compute; reflexivity).
    exists 3%N, 4%N. split; [vm_compute; reflexivity|]. split; [vm_compute; reflexivity|]. intros n. unfold fr0, fr_of. cbn. destruct (N.eqb n 3); reflexivity. }
  assert (P0 : forall n p v, In (n, p, v) (proto_of extern_start) -> wf v).
  { intros n p v H. vm_compute in H. repeat destruct H as [H|H]; try contradiction; injection H as _ _ <-; constructor. }
  exists extern, (proto_of extern_start), (facts_of extern extern_start), 2%N, [bitval 0], fr0, 3%N, 0, [bitval 0], (bitval 0).
  split; [exact W|]. split; [vm_compute; reflexivity|]. split; [apply toy_sensible; [exact W|vm_compute; reflexivity|exact P0]|].
  split; [apply facts_result; [eexists; vm_compute; reflexivity|vm_compute; reflexivity]|]. split; [vm_compute; reflexivity|]. split; [vm_compute; reflexivity|].
  split; [exact S0|]. split; [|vm_compute; repeat split].
  eapply run_inputs_sound with (pr := []) (given := []) (h := extern); [vm_compute; reflexivity|vm_compute; tauto|exact S0|right; intros p v []|intros p v c []].
Qed.
Print Assumptions entry_input_refuted.

(** If the entrypoint is not a function, the values that reach it by edges from outside are taken to be impossible. *)
Definition inner : hugr op N := graph_of (make (rich_acts ++ [SetEntry 7%N])).
Definition inner_start : prepopulated (V := N) := run_proto inner [] [].
Theorem outer_values_refuted : exists (h : hugr op N) proto s e cs outer fr0 fr n p row c,
  GraphSpec.wf h /\ validate no_types simple_ops h = VOk /\ sensible same toy_sem toy_ctx h proto /\ result toy_ctx h N.eq_dec proto s /\
  run_proto h [] [] = Prepared proto /\ e = h_entry h /\ starts h e cs outer fr0 /\ feeds same h proto e cs /\
  (forall m row, outer m = Some row -> ~ In m (descendants h e)) /\ steps toy_sem toy_ctx h [(fr0, None)] [(fr, None)] /\
  read_out_wire h s n p = Some Bottom /\ env fr n = Some row /\ nth_error row p = Some c.
Proof.
  assert (W : GraphSpec.wf inner) by (apply built_wf; vm_compute; tauto).
  set (outer := fun n => if N.eqb n 5 then Some [CVal 5%N : conc N N unit] else None).
  set (fr0 := {| start := 7%N; args := []; env := outer; pc := fun _ => None |} : @frame N).
  set (fr1 := enter inner fr0 7%N 8%N []).
  set (fr2 := put fr1 10%N [CVal 6%N]).
  assert (S0 : starts inner 7%N [] outer fr0).
  { split; [reflexivity|]. split; [reflexivity|]. split; [reflexivity|].
    replace (h_ops inner 7%N) with (ODfg ([], [bit])) by (vm_compute; reflexivity). split; [vm_compute; reflexivity|reflexivity]. }
  assert (P0 : forall n p v, In (n, p, v) (proto_of inner_start) -> wf v) by (intros n p v H; vm_compute in H; contradiction).
  exists inner, (proto_of inner_start), (facts_of inner inner_start), 7%N, [], outer, fr0, fr2, 10%N, 0, [CVal 6%N], (CVal 6%N).
  split; [exact W|]. split; [vm_compute; reflexivity|]. split; [apply toy_sensible; [exact W|vm_compute; reflexivity|exact P0]|].
  split; [apply facts_result; [eexists; vm_compute; reflexivity|vm_compute; reflexivity]|]. split; [vm_compute; reflexivity|]. split; [vm_compute; reflexivity|].
  split; [exact S0|]. split; [intros [|p] c Hc; discriminate Hc|]. split.
  { intros m row H. unfold outer in H. destruct (N.eqb m 5) eqn:E; [|discriminate H]. apply N.eqb_eq in E as ->. apply memN_false. vm_compute. reflexivity. }
  split; [|split; [vm_compute; reflexivity|split; vm_compute; reflexivity]].
  apply steps_more with (b := [(fr1, None)]); [apply steps_more with (b := [(fr0, None)]); [apply steps_none|]|].
  - apply s_local. eapply s_dfg_in with (g := ([], [bit])) (o := 9%N).
    + split; [vm_compute; tauto|]. split; [right; reflexivity|reflexivity].
    + vm_compute. reflexivity.
    + vm_compute. reflexivity.
    + reflexivity.
    + vm_compute. reflexivity.
    + vm_compute. reflexivity.
  - apply s_local. eapply s_leaf with (n := 10%N) (ins := [CVal 5%N]).
    + split; [vm_compute; tauto|]. split; [|vm_compute; reflexivity]. left. exists 7%N, 8%N, 9%N, []. vm_compute. tauto.
    + unfold inputs. cbn [start fr0 fr1 enter N.eqb andb Pos.eqb]. split; [vm_compute; reflexivity|]. intros [|[|i]] c Hc; try discriminate Hc. injection Hc as <-.
      exists 5%N, 0, [CVal 5%N]. split; [vm_compute; reflexivity|]. split; vm_compute; reflexivity.
    + eapply l_ext; vm_compute; reflexivity.
    + vm_compute. reflexivity.
Qed.
Print Assumptions outer_values_refuted.

(** If the function of an indirect call is unknown, the functions it may be are not taken to be called.  (The private function 1
    is not given inputs by anything else.) *)
Definition secret_acts : list (act (O := op) (M := N)) :=
  let g := {| p_params := []; p_ins := [bit]; p_outs := [bit] |} in
  [AddChild 1%N 0%N (OFuncDefn 0 g false); AddChild 2%N 1%N (OInput [bit]); AddChild 3%N 1%N (OOutput [bit]); Connect 2%N 0 3%N 0;
   AddChild 4%N 0%N (fn 1); AddChild 5%N 4%N (OInput [bit]); AddChild 6%N 4%N (OOutput [bit]);
   AddChild 7%N 4%N (OLoadFunction g [] ([bit], [bit])); Connect 1%N 0 7%N 0;
   AddChild 8%N 4%N (OExt 3 2 [] ([TFun [bit] [bit]], [TFun [bit] [bit]])); Connect 7%N 0 8%N 0;
   AddChild 9%N 4%N (OCallIndirect ([bit], [bit])); Connect 8%N 0 9%N 0; Connect 5%N 0 9%N 1; Connect 9%N 0 6%N 0].
Definition secret : hugr op N := graph_of (make secret_acts).
Definition secret_start : prepopulated (V := N) := prepopulate_inputs secret [] 4%N [].
Theorem indirect_call_refuted : exists (h : hugr op N) proto s e cs fr0 fr st n p row c,
  GraphSpec.wf h /\ validate no_types simple_ops h = VOk /\ sensible same toy_sem toy_ctx h proto /\ result toy_ctx h N.eq_dec proto s /\
  prepopulate_inputs h [] e [] = Prepared proto /\ run_proto h proto [] = Prepared proto /\ starts h e cs (fun _ => None) fr0 /\ feeds same h proto e cs /\
  steps toy_sem toy_ctx h [(fr0, None)] ((fr, Some 9%N) :: st) /\
  read_out_wire h s n p = Some Bottom /\ env fr n = Some row /\ nth_error row p = Some c.
Proof.
  assert (W : GraphSpec.wf secret) by (apply built_wf; vm_compute; tauto).
  set (fr0 := fr_of 4%N [CVal 5%N] [(5%N, [CVal 5%N])]).
  set (fr1 := put fr0 7%N [CFun 1%N tt]).
  set (fr2 := put fr1 8%N [CFun 1%N tt]).
  set (fr3 := new_frame 1%N 2%N [CVal 5%N]).
  assert (S0 : starts secret 4%N [CVal 5%N] (fun _ => None) fr0).
  { split; [reflexivity|]. split; [reflexivity|]. split; [reflexivity|].
    replace (h_ops secret 4%N) with (fn 1%N) by (vm_compute; reflexivity).
    exists 5%N, 6%N. split; [vm_compute; reflexivity|]. split; [vm_compute; reflexivity|]. intros n. unfold fr0, fr_of. cbn. destruct (N.eqb n 5); reflexivity. }
  assert (P0 : forall n p v, In (n, p, v) (proto_of secret_start) -> wf v).
  { intros n p v H. vm_compute in H. repeat destruct H as [H|H]; try contradiction; injection H as _ _ <-; constructor. }
  exists secret, (proto_of secret_start), (facts_of secret secret_start), 4%N, [CVal 5%N], fr0, fr3, [(fr2, None)], 2%N, 0, [CVal 5%N], (CVal 5%N).
  split; [exact W|]. split; [vm_compute; reflexivity|]. split; [apply toy_sensible; [exact W|vm_compute; reflexivity|exact P0]|].
  split; [apply facts_result; [eexists; vm_compute; reflexivity|vm_compute; reflexivity]|]. split; [vm_compute; reflexivity|]. split; [vm_compute; reflexivity|].
  split; [exact S0|]. split.
  { eapply prepopulated_inputs_sound with (pr := []) (given := []); [vm_compute; reflexivity|vm_compute; tauto|exact S0|intros p v c []]. }
  assert (A : forall fr n, In n (h_nodes secret) -> env fr 5%N = Some [CVal 5%N] -> get_parent secret n = Some 4%N -> env fr n = None -> waiting secret fr n).
  { intros fr n Hn H5 Hp He. split; [exact Hn|]. split; [|exact He]. left. exists 4%N, 5%N, 6%N, [CVal 5%N]. split; [exact Hp|]. split; [vm_compute; reflexivity|exact H5]. }
  split; [|split; [vm_compute; reflexivity|split; vm_compute; reflexivity]].
  apply steps_more with (b := [(fr2, None)]); [apply steps_more with (b := [(fr1, None)]); [apply steps_more with (b := [(fr0, None)]); [apply steps_none|]|]|].
  - apply s_local. eapply s_leaf with (n := 7%N) (ins := []).
    + apply A; vm_compute; tauto.
    + unfold inputs. cbn [start fr0 fr_of N.eqb andb Pos.eqb]. split; [vm_compute; reflexivity|]. intros [|i] c Hc; discriminate Hc.
    + eapply l_func with (e := (1%N, 0)); vm_compute; reflexivity.
    + vm_compute. reflexivity.
  - apply s_local. eapply s_leaf with (n := 8%N) (ins := [CFun 1%N tt]).
    + apply A; vm_compute; tauto.
    + unfold inputs. cbn [start fr0 fr1 put fr_of N.eqb andb Pos.eqb]. split; [vm_compute; reflexivity|]. intros [|[|i]] c Hc; try discriminate Hc. injection Hc as <-.
      exists 7%N, 0, [CFun 1%N tt]. split; [vm_compute; reflexivity|]. split; vm_compute; reflexivity.
    + eapply l_ext; vm_compute; reflexivity.
    + vm_compute. reflexivity.
  - eapply s_call with (ins := [CVal 5%N]) (o := 3%N).
    + apply A; vm_compute; tauto.
    + eapply c_indirect with (g := ([bit], [bit])); [vm_compute; reflexivity|].
      unfold inputs. cbn [start fr0 fr1 fr2 put fr_of N.eqb andb Pos.eqb]. split; [vm_compute; reflexivity|]. intros [|[|[|i]]] c Hc; try discriminate Hc; injection Hc as <-.
      * exists 8%N, 0, [CFun 1%N tt]. split; [vm_compute; reflexivity|]. split; vm_compute; reflexivity.
      * exists 5%N, 0, [CVal 5%N]. split; [vm_compute; reflexivity|]. split; vm_compute; reflexivity.
    + vm_compute. reflexivity.
    + vm_compute. reflexivity.
    + vm_compute. reflexivity.
Qed.
Print Assumptions indirect_call_refuted.

(** Values given in advance for the inputs of an entrypoint that is a function are lost: [run] takes them for missing and
    adds that the inputs are unknown. *)
Theorem prepopulated_entry_refuted : exists (h : hugr op N) proto proto' s,
  GraphSpec.wf h /\ validate no_types simple_ops h = VOk /\
  prepopulate_inputs h [] (h_entry h) [(0, Val 5%N)] = Prepared proto /\ run_proto h proto [] = Prepared proto' /\
  result toy_ctx h N.eq_dec proto' s /\ read_out_wire h s 10%N 0 = Some Top /\ read_out_wire h rich_facts 10%N 0 = Some (Val 6%N).
Proof.
  exists rich, (proto_of (prepopulate_inputs rich [] 4%N [(0, Val 5%N)])), (proto_of (run_proto rich (proto_of (prepopulate_inputs rich [] 4%N [(0, Val 5%N)])) [])),
    (facts_of rich (run_proto rich (proto_of (prepopulate_inputs rich [] 4%N [(0, Val 5%N)])) [])).
  split; [exact rich_wf|]. split; [vm_compute; reflexivity|]. split; [vm_compute; reflexivity|]. split; [vm_compute; reflexivity|].
  split; [apply facts_result; [eexists; vm_compute; reflexivity|vm_compute; reflexivity]|]. split; vm_compute; reflexivity.
Qed.
Print Assumptions prepopulated_entry_refuted.
