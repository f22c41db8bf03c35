(** Theorems about the inlining of calls. *)
From Coq Require Import List Bool NArith Arith Lia.
From Verif Require Import PValModel TypesModel GraphModel GraphSpec PValSpec GraphProofs GraphRemove GraphBfs OpModel OpSpec DeadModel DeadSpec DeadProps InlineModel InsertModel InsertSpec InsertProofs ReplaceModel ValidModel ValidSpec ValidProps FlowModel FlowSpec EmitModel EmitSpec EmitGraph EmitProps MirrorProofs CullProofs CullProps RenameProofs IncallModel IncallSpec IncallFacts IncallSim.
Import ListNotations.
Local Notation wf := GraphSpec.wf.

(** ** Static edges of valid graphs *)
Lemma function_out o i k : (exists ks, ports o Out ks /\ nth_error ks i = Some k) -> (exists g, k = EFunction g) -> is_function o /\ k = EFunction (match o with OFuncDefn _ g _ | OFuncDecl _ g _ => g | _ => {| p_params := []; p_ins := []; p_outs := [] |} end).
Proof.
  intros (ks & P & Hn) (g & ->). rewrite (ports_row _ _ _ P) in Hn. apply nth_error_In in Hn. unfold layout_row in Hn. apply in_app_or in Hn. destruct Hn as [Hn|Hn].
  - unfold values in Hn. apply in_map_iff in Hn as (? & Hn & _). discriminate.
  - destruct o; cbn in Hn; repeat match goal with H : _ \/ _ |- _ => destruct H | H : False |- _ => contradiction end; try discriminate; try (cbn; match goal with H : EFunction _ = EFunction _ |- _ => injection H as <- end; auto; fail).
    all: try (apply in_map_iff in Hn as (? & Hn & _); discriminate).
Qed.
Lemma const_out o i t : (exists ks, ports o Out ks /\ nth_error ks i = Some (EConst t)) -> exists v u ok, o = OConst v u ok.
Proof.
  intros (ks & P & Hn). rewrite (ports_row _ _ _ P) in Hn. apply nth_error_In in Hn. unfold layout_row in Hn. apply in_app_or in Hn. destruct Hn as [Hn|Hn].
  - unfold values in Hn. apply in_map_iff in Hn as (? & Hn & _). discriminate.
  - destruct o; cbn in Hn; repeat match goal with H : _ \/ _ |- _ => destruct H | H : False |- _ => contradiction end; try discriminate; try (eauto; fail).
    all: try (apply in_map_iff in Hn as (? & Hn & _); discriminate).
Qed.
Lemma linked_in {M} (h : hugr op M) n i e : In e (linked_outputs h n i) -> In (e, (n, i)) (h_links h).
Proof.
  unfold linked_outputs. intros H. apply in_map_iff in H as ([s d] & <- & H). apply filter_In in H as [H Hq]. apply ep_eqb_iff in Hq. cbn in Hq. subst d. exact H.
Qed.

Section Theorems.
  Context {W V E F M : Type}.
  Notation hugr := (hugr op M).
  Variable env : N -> N -> option typedef.
  Variable defs : N -> N -> opsig.

  Lemma call_source (h : hugr) n g a i x : valid env defs h -> h_ops h n = OCall g a i -> DeadModel.static_source h n = Some x ->
    is_function (h_ops h x) /\ (forall nm sg pub, h_ops h x = OFuncDefn nm sg pub -> sg = g).
  Proof.
    intros V_ On Sx. unfold DeadModel.static_source in Sx. rewrite On in Sx. destruct i as [ins outs]. cbn in Sx.
    destruct (linked_outputs h n (length ins)) as [|[s p] l] eqn:El; [discriminate|]. cbn in Sx. injection Sx as <-.
    destruct (v_links _ _ _ V_ s p n (length ins)) as (k & Hs & Hd & _); [apply linked_in; rewrite El; left; reflexivity|].
    assert (Ek : k = EFunction g).
    { destruct Hd as (ks & P & Hn). rewrite On in P. inversion P; subst. rewrite nth_error_app2 in Hn by (unfold values; rewrite map_length; lia). unfold values in Hn. rewrite map_length, Nat.sub_diag in Hn. cbn in Hn. congruence. }
    destruct (function_out _ _ _ Hs (ex_intro _ g Ek)) as (Hf & He). split; [exact Hf|]. intros nm sg pub O. rewrite O in He. congruence.
  Qed.
  Lemma load_source (h : hugr) n g a i e : valid env defs h -> h_ops h n = OLoadFunction g a i -> single_linked_output h n 0 = Some e -> is_function (h_ops h (fst e)).
  Proof.
    intros V_ On Se. unfold single_linked_output in Se. destruct (linked_outputs h n 0) as [|[s p] [|]] eqn:El; try discriminate. injection Se as <-.
    destruct (v_links _ _ _ V_ s p n 0) as (k & Hs & Hd & _); [apply linked_in; rewrite El; left; reflexivity|].
    assert (Ek : k = EFunction g) by (destruct Hd as (ks & P & Hn); rewrite On in P; inversion P; subst; cbn in Hn; congruence).
    exact (proj1 (function_out _ _ _ Hs (ex_intro _ g Ek))).
  Qed.
  Lemma const_source (h : hugr) n t e : valid env defs h -> h_ops h n = OLoadConstant t -> single_linked_output h n 0 = Some e -> exists v u ok, h_ops h (fst e) = OConst v u ok.
  Proof.
    intros V_ On Se. unfold single_linked_output in Se. destruct (linked_outputs h n 0) as [|[s p] [|]] eqn:El; try discriminate. injection Se as <-.
    destruct (v_links _ _ _ V_ s p n 0) as (k & Hs & Hd & _); [apply linked_in; rewrite El; left; reflexivity|].
    assert (Ek : k = EConst t) by (destruct Hd as (ks & P & Hn); rewrite On in P; inversion P; subst; cbn in Hn; congruence).
    subst k. exact (const_out _ _ _ Hs).
  Qed.

  (** ** C63 *)
  (** The call of a function without type parameters in a valid HUGR, from outside of the function, can be inlined: the result is well formed, the call
      has become a dataflow graph that holds a copy of the body, and nothing else has changed. *)
  Theorem inline_call_structure (h : hugr) c f nm sg pub ids :
    wf h -> valid env defs h -> In c (h_nodes h) -> h_ops h c = OCall sg [] (p_ins sg, p_outs sg) ->
    DeadModel.static_source h c = Some f -> h_ops h f = OFuncDefn nm sg pub -> ~ up (h_parent h) c f ->
    NoDup ids -> (forall y, In y ids -> ~ In y (h_nodes h)) -> length (h_nodes h) <= length ids ->
    exists h' m, inline_call env h c ids = CallInlined h' m /\ wf h' /\ call_inlined h f c sg (image_of m) h'.
  Proof.
    intros Wh V_ Hc Oc Sc Of Hcf Hids Hfresh Hlen.
    assert (Hf : In f (h_nodes h)).
    { unfold DeadModel.static_source in Sc. rewrite Oc in Sc. cbn in Sc. destruct (linked_outputs h c (length (p_ins sg))) as [|[s p] l] eqn:El; [discriminate|]. injection Sc as <-.
      apply (wf_links h Wh ((s, p), (c, length (p_ins sg)))). apply linked_in. rewrite El. left. reflexivity. }
    apply (inline_call_spec env h f c nm sg pub ids); try assumption.
    - exact (call_ports env defs h c sg [] _ _ V_ Hc Oc).
    - exact (call_kids env defs h c sg [] _ Wh V_ Oc).
    - exact (nothing_leaves env defs h f nm sg pub Wh V_ Hf Of).
  Qed.

  Variable sem : @semantics W E F.
  Variable ctx : @context V E F.
  (** Equal operations do the same wherever they are. *)
  Definition uniform (h : hugr) : Prop := forall x y ins outs, h_ops h x = h_ops h y -> op_sem sem x ins outs -> op_sem sem y ins outs.

  (** What a function computes before a call is inlined, it computes afterwards. *)
  Theorem inline_call_results (h h' : hugr) c f nm sg pub ids m g ng sgg pg ins outs :
    wf h -> valid env defs h -> In c (h_nodes h) -> h_ops h c = OCall sg [] (p_ins sg, p_outs sg) ->
    DeadModel.static_source h c = Some f -> h_ops h f = OFuncDefn nm sg pub -> ~ up (h_parent h) c f ->
    NoDup ids -> (forall y, In y ids -> ~ In y (h_nodes h)) -> length (h_nodes h) <= length ids ->
    (forall d n s p, h_ops h d = OFuncDecl n s p -> In d (h_nodes h)) -> uniform h' ->
    inline_call env h c ids = CallInlined h' m -> h_ops h g = OFuncDefn ng sgg pg ->
    computes sem ctx h g ins outs -> computes sem ctx h' g ins outs.
  Proof.
    intros Wh V_ Hc Oc Sc Of Hcf Hids Hfresh Hlen Hdecl Hu Hr Og Hcomp.
    destruct (inline_call_structure h c f nm sg pub ids Wh V_ Hc Oc Sc Of Hcf Hids Hfresh Hlen) as (h1 & m1 & Hr1 & Wh' & CI). rewrite Hr in Hr1. injection Hr1 as <- <-.
    assert (Hf : In f (h_nodes h)).
    { unfold DeadModel.static_source in Sc. rewrite Oc in Sc. cbn in Sc. destruct (linked_outputs h c (length (p_ins sg))) as [|[s p] l] eqn:El; [discriminate|]. injection Sc as <-.
      apply (wf_links h Wh ((s, p), (c, length (p_ins sg)))). apply linked_in. rewrite El. left. reflexivity. }
    pose proof (valid_tidy env defs h Wh V_) as T.
    assert (Hio : exists iF oF, get_io h f = Some (iF, oF)).
    { destruct (v_region _ _ _ V_ f Hf (p_ins sg) (p_outs sg)) as ((a & b & l & Ek & _) & _). { rewrite Of. constructor. } exists a, b. unfold get_io. rewrite Of, Ek. reflexivity. }
    destruct Hio as (iF & oF & Hio).
    refine (inlined_computes sem ctx h h' f c nm sg pub (image_of m) Wh Wh' CI T Hc Hf Oc Sc Of _ Hcf _ _ _ _ _ iF oF Hio g ins outs ng sgg pg Og Hcomp).
    - exact (call_kids env defs h c sg [] _ Wh V_ Oc).
    - intros n g0 a i x On Sx. exact (proj1 (call_source h n g0 a i x V_ On Sx)).
    - intros n g0 a i e On Se. exact (load_source h n g0 a i e V_ On Se).
    - intros n t e On Se. exact (const_source h n t e V_ On Se).
    - intros d n s p Od. assert (Nc : d <> c) by (intros ->; rewrite Oc in Od; discriminate). rewrite (proj1 (ci_old _ _ _ _ _ _ CI d (Hdecl d n s p Od) Nc)). exact Od.
    - intros x i0 o0 Dx. apply Hu. rewrite (proj1 (ci_new _ _ _ _ _ _ CI x Dx)). refine (proj1 (ci_old _ _ _ _ _ _ CI x _ _)).
      + destruct Dx as [U Ne]. inversion U as [|? p ? P _]; subst; [contradiction|]. exact (proj1 (wf_parent_live h Wh x p P)).
      + intros ->. exact (Hcf (proj1 Dx)).
  Qed.

  (** Other nodes are refused and the HUGR is left alone; a call of a declaration is refused too. *)
  Theorem inline_call_refuses (h : hugr) n ids : In n (h_nodes h) -> (forall g a i, h_ops h n <> OCall g a i) -> inline_call env h n ids = NotCallNode n (h_ops h n).
  Proof.
    intros Hn Ho. unfold inline_call, contains. rewrite (proj2 (memN_iff _ _) Hn). cbn [negb]. destruct (h_ops h n) eqn:O; try reflexivity. exfalso. exact (Ho _ _ _ eq_refl).
  Qed.
  Theorem inline_call_declared (h : hugr) n g a i f nm sg pub ids : In n (h_nodes h) -> h_ops h n = OCall g a i -> DeadModel.static_source h n = Some f ->
    h_ops h f = OFuncDecl nm sg pub -> inline_call env h n ids = CallTargetNotFuncDefn f (h_ops h f).
  Proof.
    intros Hn On Sf Of. unfold inline_call, contains. rewrite (proj2 (memN_iff _ _) Hn). cbn [negb]. rewrite On, Sf, Of. reflexivity.
  Qed.
End Theorems.
Print Assumptions inline_call_structure.
Print Assumptions inline_call_results.
Print Assumptions inline_call_refuses.
Print Assumptions inline_call_declared.

(** ** Examples *)
(** The function that is called adds one; the call sits in a nested graph, and an order edge leads to it. *)
Definition host : hugr op N := graph_of (make (rich_acts ++
  [ReplaceOp 28%N (OTag 1 two); AddChild 33%N 1%N (bit_op 0); Disconnect 3%N Inc 0; Connect 2%N 0 33%N 0; Connect 33%N 0 3%N 0; Connect 10%N 1 13%N 2])).
Definition spare : list N := map N.of_nat (seq 34 40).
Definition inlined (h : hugr op N) (c : N) : hugr op N := match inline_call no_types h c spare with CallInlined h' _ => h' | _ => h end.
Definition inlined_map (h : hugr op N) (c : N) : list (N * N) := match inline_call no_types h c spare with CallInlined _ m => m | _ => [] end.
Example host_wf : wf host.
Proof. apply built_wf. vm_compute. tauto. Qed.
Example host_valid : valid no_types simple_ops host.
Proof. apply validate_accepts; [exact host_wf|]. vm_compute. reflexivity. Qed.
Definition done (r : @incalled N) : bool := match r with CallInlined _ _ => true | _ => false end.
Lemma done_inlined (h : hugr op N) c : done (inline_call no_types h c spare) = true -> inline_call no_types h c spare = CallInlined (inlined h c) (inlined_map h c).
Proof. unfold inlined, inlined_map. destruct (inline_call no_types h c spare); cbn; try discriminate. reflexivity. Qed.
(** The call is node 13; it becomes a dataflow graph with three copies, and the order edge goes to another port. *)
Example host_inlined : done (inline_call no_types host 13%N spare) = true /\ inlined_map host 13%N = [(2, 34); (3, 35); (33, 36)]%N /\
  h_ops (inlined host 13%N) 13%N = ODfg ([bit], [bit]) /\ h_kids (inlined host 13%N) 13%N = [34; 35; 36]%N /\
  h_kids (inlined host 13%N) 1%N = [2; 3; 33]%N /\
  filter (fun l => N.eqb (fst (snd l)) 13%N) (h_links (inlined host 13%N)) = [((10%N, 0), (13%N, 0)); ((10%N, 1), (13%N, 1))] /\
  validate no_types simple_ops (inlined host 13%N) = VOk.
Proof. vm_compute. repeat split. Qed.
Lemma host_facts : In 13%N (h_nodes host) /\ h_ops host 13%N = call_op /\ DeadModel.static_source host 13%N = Some 1%N /\ h_ops host 1%N = fn 0 /\
  h_ops host 4%N = fn 1 /\ forallb (fun y => negb (memN y (h_nodes host))) spare = true /\ Nat.leb (length (h_nodes host)) (length spare) = true.
Proof. vm_compute. repeat split; auto; tauto. Qed.
Lemma host_apart : memN 13%N (descendants host 1%N) = false /\ memN 1%N (h_nodes host) = true.
Proof. vm_compute. auto. Qed.
Lemma host_decls : forall d n s p, h_ops host d = OFuncDecl n s p -> In d (h_nodes host).
Proof.
  intros d n s p O. destruct (in_dec N.eq_dec d (h_nodes host)) as [Y|N0]; [exact Y|]. exfalso. revert O. unfold host. vm_compute.
  repeat (destruct d as [|d]; try discriminate); repeat (destruct d; try discriminate).
Qed.

(** With the operations of the HUGR [h2]. *)
Definition demo_run2 (h2 h : hugr op N) (f : N) (ins : list (conc N N unit)) : option (list (conc N N unit)) :=
  match emitted demo_ctx h everything f with
  | Some fn => eval (fun e => e) (demo_op h2) (emitted demo_ctx h everything) 200 (f_code fn) (f_code fn 0%N) no_mem (with_params ins)
  | None => None
  end.
Lemma demo_computes2 (h2 h : hugr op N) f ins outs : wf h -> valid no_types simple_ops h ->
  match emitted demo_ctx h everything f with Some fn => Nat.eqb (length ins) (f_params fn) | None => false end = true ->
  demo_run2 h2 h f ins = Some outs -> computes (demo_sem h2) demo_ctx h f ins outs.
Proof.
  intros Wf Va Lp X. unfold demo_run2 in X. destruct (emitted demo_ctx h everything f) as [fn|] eqn:Ef; [|discriminate]. apply Nat.eqb_eq in Lp.
  destruct (eval_exec _ _ _ (externs (demo_sem h2) h) _ _ _ _ _ _ X) as (k & Y).
  refine (emission_correct no_types simple_ops h (demo_sem h2) demo_ctx everything (op_rel (demo_op h2)) Wf Va _ f fn ins outs Ef _); [|exists k; split; [exact Lp|exact Y]].
  intros n e nm a g ins0 outs0 On R. eapply l_ext; [exact On|reflexivity|exact R].
Qed.
Example host_runs : demo_run2 (inlined host 13%N) host 4%N [CVal 5%N] = Some [CVal 8%N] /\
  match emitted demo_ctx host everything 4%N with Some fn => Nat.eqb 1 (f_params fn) | None => false end = true.
Proof. vm_compute. auto. Qed.
Lemma demo_uniform (h : hugr op N) : uniform (demo_sem h) h.
Proof. intros x y ins outs O H. cbn in *. unfold demo_op in *. rewrite <- O. exact H. Qed.
Lemma fresh_spare (h : hugr op N) : forallb (fun y => negb (memN y (h_nodes h))) spare = true -> forall y, In y spare -> ~ In y (h_nodes h).
Proof. intros H y Hy Iy. rewrite forallb_forall in H. specialize (H y Hy). apply memN_iff in Iy. rewrite Iy in H. discriminate. Qed.
Lemma spare_once : NoDup spare.
Proof. unfold spare. apply FinFun.Injective_map_NoDup; [intros a b X; apply Nat2N.inj; exact X|apply seq_NoDup]. Qed.
Example host_same : computes (demo_sem (inlined host 13%N)) demo_ctx (inlined host 13%N) 4%N [CVal 5%N] [CVal 8%N].
Proof.
  destruct host_facts as (Hc & Oc & Sc & Of & Og & Hfr & Hlen). destruct host_apart as (Hap & Hf). apply memN_iff in Hf. destruct host_runs as (Hrun & Hpar). destruct host_inlined as (Hd & _).
  pose proof (done_inlined host 13%N Hd) as Hi. pose proof (fresh_spare host Hfr) as Hfresh. pose proof host_decls as Hdecl. pose proof host_wf as Wh. pose proof host_valid as V_.
  pose proof (demo_computes2 (inlined host 13%N) host 4%N [CVal 5%N] [CVal 8%N] Wh V_ Hpar Hrun) as Hc4. pose proof (demo_uniform (inlined host 13%N)) as Hu. apply Nat.leb_le in Hlen.
  revert Hc Oc Sc Of Og Hap Hf Hlen Hi Hfresh Hdecl Wh V_ Hc4 Hu. generalize (inlined_map host 13%N) as m. generalize (inlined host 13%N) as h'. generalize host as h. clear.
  intros h h' m Hc Oc Sc Of Og Hap Hf Hlen Hi Hfresh Hdecl Wh V_ Hc4 Hu.
  assert (Hcf : ~ up (h_parent h) 13%N 1%N) by (intros U; apply (desc_iff h Wh 1%N 13%N Hf) in U; congruence).
  exact (inline_call_results no_types simple_ops (demo_sem h') demo_ctx h h' 13%N 1%N _ _ _ spare m 4%N _ _ _ _ _ Wh V_ Hc Oc Sc Of Hcf spare_once Hfresh Hlen Hdecl Hu Hi Og Hc4).
Qed.
Example host_refused : inline_call no_types host 10%N spare = NotCallNode 10%N (bit_op 0).
Proof. vm_compute. reflexivity. Qed.

(** ** Disagreement *)
(** "Failure only occurs if the node is not a Call, or the target not a FuncDefn.  (Any later failure means an invalid Hugr and panic.)": a call inside of the function that it calls panics. *)
Definition recursive : hugr op N := graph_of (make (rich_acts ++ [Disconnect 13%N Inc 1; Connect 4%N 0 13%N 1])).
Lemma recursive_facts : In 13%N (h_nodes recursive) /\ h_ops recursive 13%N = call_op /\ DeadModel.static_source recursive 13%N = Some 4%N /\ h_ops recursive 4%N = fn 1 /\
  validate no_types simple_ops recursive = VOk /\ inline_call no_types recursive 13%N spare = CallPanic.
Proof. vm_compute. repeat split; auto; tauto. Qed.
Lemma recursive_wf : wf recursive.
Proof. apply built_wf. vm_compute. tauto. Qed.
Theorem inline_call_no_panic_refuted : exists (h : hugr op N) c f nm sg pub,
  wf h /\ valid no_types simple_ops h /\ In c (h_nodes h) /\ h_ops h c = OCall sg [] (p_ins sg, p_outs sg) /\ DeadModel.static_source h c = Some f /\ h_ops h f = OFuncDefn nm sg pub /\
  inline_call no_types h c spare = CallPanic.
Proof.
  pose proof recursive_wf as Wh. destruct recursive_facts as (Hc & Oc & Sc & Of & Hv & Hi). revert Wh Hc Oc Sc Of Hv Hi. generalize recursive as h. intros h Wh Hc Oc Sc Of Hv Hi.
  exists h, 13%N, 4%N, 1%N. eexists. exists true. split; [exact Wh|]. split; [exact (proj1 (validate_accepts no_types simple_ops h Wh) Hv)|]. split; [exact Hc|]. split; [exact Oc|]. split; [exact Sc|]. split; [exact Of|exact Hi].
Qed.
Print Assumptions inline_call_no_panic_refuted.

(** A call of a function with a type parameter: the type arguments are put into the body, but the dataflow graph around it gets the types of the function as they stand,
    and the result is not valid. *)
Definition any_ty : TypesModel.ty := TVar 0 Copyable.
Definition any_sig : poly := {| p_params := [KType Copyable]; p_ins := [any_ty]; p_outs := [any_ty] |}.
Definition generic : hugr op N := graph_of (make
  [AddChild 1%N 0%N (OFuncDefn 0 any_sig false); AddChild 2%N 1%N (OInput [any_ty]); AddChild 3%N 1%N (OOutput [any_ty]); Connect 2%N 0 3%N 0;
   AddChild 4%N 0%N (fn 1); AddChild 5%N 4%N (OInput [bit]); AddChild 6%N 4%N (OOutput [bit]);
   AddChild 7%N 4%N (OCall any_sig [MType bit] ([bit], [bit])); Connect 5%N 0 7%N 0; Connect 1%N 0 7%N 1; Connect 7%N 0 6%N 0]).
Lemma generic_wf : wf generic.
Proof. apply built_wf. vm_compute. tauto. Qed.
Lemma generic_facts : validate no_types simple_ops generic = VOk /\ done (inline_call no_types generic 7%N spare) = true /\
  h_ops (inlined generic 7%N) 7%N = ODfg ([any_ty], [any_ty]) /\ h_ops (inlined generic 7%N) 34%N = OInput [bit] /\ map snd (inlined_map generic 7%N) = [34; 35]%N /\
  validate no_types simple_ops (inlined generic 7%N) <> VOk /\ In 7%N (h_nodes (inlined generic 7%N)) /\ h_kids (inlined generic 7%N) 7%N = [34; 35]%N.
Proof. vm_compute. repeat split; try discriminate; tauto. Qed.
Theorem inline_call_valid_refuted : exists (h h' : hugr op N) c m,
  wf h /\ valid no_types simple_ops h /\ inline_call no_types h c spare = CallInlined h' m /\ ~ valid no_types simple_ops h'.
Proof.
  pose proof generic_wf as Wh. destruct generic_facts as (Hv & Hd & Hop & Hin & _ & _ & Hn & Hk). pose proof (done_inlined generic 7%N Hd) as Hi. revert Wh Hv Hop Hin Hn Hk Hi.
  generalize (inlined_map generic 7%N) as m. generalize (inlined generic 7%N) as h'. generalize generic as h. intros h h' m Wh Hv Hop Hin Hn Hk Hi.
  exists h, h', 7%N, m. split; [exact Wh|]. split; [exact (proj1 (validate_accepts no_types simple_ops h Wh) Hv)|]. split; [exact Hi|].
  intros V_. destruct (v_region _ _ _ V_ 7%N Hn [any_ty] [any_ty]) as ((a & b & l & Ek & Oa & _) & _); [rewrite Hop; constructor|]. rewrite Hk in Ek. injection Ek as <- _ _. rewrite Hin in Oa. discriminate.
Qed.
Print Assumptions inline_call_valid_refuted.
