(** Dead code elimination keeps what functions compute (claim C60). *)
From Coq Require Import List Bool NArith Arith Lia.
From Verif Require Import PValModel TypesModel GraphModel GraphSpec PValSpec GraphProofs OpModel DeadModel DeadSpec DeadProofs DeadProps InlineModel ReplaceModel ValidModel ValidSpec ValidProps FlowModel FlowSpec EmitSpec EmitProps MirrorProofs CullProofs.
Import ListNotations.
Local Notation wf := GraphSpec.wf.

Section Theorems.
  Context {W V E F M : Type}.
  Variable sem : @semantics W E F.
  Variable ctx : @context V E F.
  Variable cb : hugr op M -> N -> preserve.
  Variable env : N -> N -> option typedef.
  Variable defs : N -> N -> opsig.

  (** Whatever the callback says: what is left of a valid HUGR computes the same results, no more and no fewer. *)
  Theorem dce_keeps_results (h h' : hugr op M) entries f ins outs :
    wf h -> valid env defs h -> keeps_functions cb h entries -> dce cb h entries = Some (Done h') -> In f (h_nodes h') ->
    computes sem ctx h f ins outs <-> computes sem ctx h' f ins outs.
  Proof.
    intros Wh V_ KF Hd Hf. pose proof (valid_tidy env defs h Wh V_) as T.
    destruct (dce_culled cb h h' entries Wh T KF Hd) as (R & Wh' & C & HR & H1 & H2 & H3 & H4).
    apply (culled_computes h h' R Wh Wh' C T H1 H2 H3).
    - intros g Hg Hi. apply (H4 g); [|exact Hg|exact Hi]. apply HR in Hi as [Hb _]. inversion Hb as [x Hx|? p ? Hp _]; subst; [apply (wf_entry _ Wh)|apply (wf_parent_live h Wh _ _ Hp)].
    - apply (nodes_iff h h' R C f). exact Hf.
  Qed.

  Lemma function_parent (h : hugr op M) f p : valid env defs h -> h_parent h f = Some p -> is_function (h_ops h f) -> h_ops h p = OModule.
  Proof.
    intros V_ Hp Hf. pose proof (v_tree _ _ _ V_ f p Hp) as Ht.
    destruct (h_ops h f); try contradiction; inversion Ht; subst; try reflexivity; match goal with X : in_dataflow _ |- _ => inversion X end.
  Qed.
  Lemma function_kept (h h' : hugr op M) entries f : wf h -> valid env defs h -> keeps_functions cb h entries -> dce cb h entries = Some (Done h') ->
    In f (h_nodes h) -> is_function (h_ops h f) -> In f (h_nodes h').
  Proof.
    intros Wh V_ KF Hd Hf Hfun. destruct (dce_culled cb h h' entries Wh (valid_tidy env defs h Wh V_) KF Hd) as (R & Wh' & C & HR & H1 & H2 & H3 & H4).
    apply (nodes_iff h h' R C f). split; [exact Hf|]. apply kn. apply H4; assumption.
  Qed.

  (** The entrypoint is a function, or inside of one and not a block: all functions keep their results. *)
  Theorem dce_function_results (h h' : hugr op M) f ins outs : wf h -> valid env defs h ->
    is_module (h_ops h (h_entry h)) = false -> is_block (h_ops h (h_entry h)) = false ->
    dce cb h [] = Some (Done h') -> In f (h_nodes h) -> is_function (h_ops h f) ->
    computes sem ctx h f ins outs <-> computes sem ctx h' f ins outs.
  Proof.
    intros Wh V_ Hm Hb Hd Hf Hfun.
    assert (KF : keeps_functions cb h []).
    { constructor; [exact Hb|intros e a []|]. intros g Hg Heq Hgl. destruct (N.eq_dec g (h_root h)) as [->|Hne]; [rewrite <- Heq; constructor|exfalso].
      destruct (wf_parent _ Wh g Hgl Hne) as (p & Hp & _). pose proof (t_fun _ (valid_tidy env defs h Wh V_) g p Hp Hg) as ->.
      pose proof (function_parent h g _ V_ Hp Hg) as Ho. rewrite Heq, Ho in Hm. discriminate. }
    apply (dce_keeps_results h h' [] f ins outs Wh V_ KF Hd). eapply function_kept; eassumption.
  Qed.

  (** The entrypoint is the module, and all functions are entry points. *)
  Theorem dce_module_results (h h' : hugr op M) entries f ins outs : wf h -> valid env defs h ->
    h_entry h = h_root h -> h_ops h (h_root h) = OModule -> (forall e, In e entries -> In e (h_kids h (h_root h))) ->
    (forall g, In g (h_kids h (h_root h)) -> is_function (h_ops h g) -> In g entries) ->
    dce cb h entries = Some (Done h') -> In f entries ->
    computes sem ctx h f ins outs <-> computes sem ctx h' f ins outs.
  Proof.
    intros Wh V_ Heq Ho Hin Hall Hd Hf. pose proof (valid_tidy env defs h Wh V_) as T.
    assert (KF : keeps_functions cb h entries).
    { constructor; [rewrite Heq, Ho; reflexivity| |].
      - intros e a He Hea Ha. inversion Hea as [|? p ? Hp Hpa]; subst; [apply needed_point; exact He|]. pose proof (proj1 (wf_kids _ Wh _ _) (Hin e He)) as Hr. rewrite Hr in Hp. injection Hp as <-.
        apply (up_root h Wh) in Hpa. subst a. rewrite <- Heq. constructor.
      - intros g Hg _ Hgl. destruct (N.eq_dec g (h_root h)) as [->|Hne]; [rewrite <- Heq; constructor|]. destruct (wf_parent _ Wh g Hgl Hne) as (p & Hp & _).
        pose proof (t_fun _ T g p Hp Hg) as ->. apply needed_point. apply Hall; [apply (wf_kids _ Wh); exact Hp|exact Hg]. }
    apply (dce_keeps_results h h' entries f ins outs Wh V_ KF Hd). destruct (dce_exact cb h h' entries Wh Hd) as [_ H]. apply H. apply needed_point. exact Hf.
  Qed.
End Theorems.
Print Assumptions dce_keeps_results.
Print Assumptions dce_function_results.
Print Assumptions dce_module_results.

(** ** Examples *)
Definition eliminated (h : hugr op N) (entries : list N) : hugr op N := match dce default_for h entries with Some (Done h') => h' | _ => h end.

Lemma eliminated_done (h : hugr op N) entries : wf h -> (forall n, In n entries -> In n (h_nodes h)) -> dce default_for h entries = Some (Done (eliminated h entries)).
Proof. intros Wh He. destruct (proj1 (dce_total default_for h entries Wh) He) as (h' & Hd). unfold eliminated. rewrite Hd. reflexivity. Qed.

(** A constant that is loaded but not used goes; the results stay. *)
Example demo_eliminated : filter (fun n => negb (memN n (h_nodes (eliminated demo [])))) (h_nodes demo) = [12; 11]%N.
Proof. vm_compute. reflexivity. Qed.
Example demo_same : forall ins outs, computes (demo_sem demo) demo_ctx demo 4%N ins outs <-> computes (demo_sem demo) demo_ctx (eliminated demo []) 4%N ins outs.
Proof.
  intros ins outs. apply (dce_function_results (demo_sem demo) demo_ctx default_for no_types simple_ops demo); [exact demo_wf|exact demo_valid|vm_compute; reflexivity|vm_compute; reflexivity|apply eliminated_done; [exact demo_wf|intros n []]|vm_compute; tauto|vm_compute; exact Logic.I].
Qed.
Example demo_still : computes (demo_sem demo) demo_ctx (eliminated demo []) 4%N [CVal 5%N] [CVal 7%N].
Proof. exact (proj1 (demo_same [CVal 5%N] [CVal 7%N]) demo_result). Qed.

(** ** Disagreement *)
(** With a block as the entrypoint, nodes are removed whose values other blocks use: the result is not valid, and the function does not compute
    anything any more. *)
Definition outside : hugr op N := graph_of (make (rich_acts ++
  [ReplaceOp 28%N (OTag 1 two); AddChild 33%N 23%N (bit_op 0); Connect 26%N 0 33%N 0; Disconnect 32%N Inc 0; Connect 33%N 0 32%N 0; SetEntry 23%N])).
Example outside_wf : wf outside.
Proof. apply built_wf. vm_compute. tauto. Qed.
Example outside_valid : valid no_types simple_ops outside.
Proof. apply validate_accepts; [exact outside_wf|]. vm_compute. reflexivity. Qed.
Example outside_result : computes (demo_sem outside) demo_ctx outside 4%N [CVal 5%N] [CVal 8%N].
Proof. apply demo_computes; [exact outside_wf|exact outside_valid|vm_compute; reflexivity|vm_compute; reflexivity]. Qed.
Lemma unconnected (h : hugr op N) n k : In n (h_nodes h) -> h_ops h n = bit_op k -> length (in_links h (n, 0)) = 0 -> ~ valid no_types simple_ops h.
Proof.
  intros Hn Ho Hl V_. assert (Hk : kind_at h n Inc 0 (EValue bit)).
  { unfold kind_at. rewrite Ho. eexists. split; [econstructor|]; reflexivity. }
  pose proof (v_inputs _ _ _ V_ n 0 _ Hn Hk) as H. rewrite Hl in H. cbv iota beta in H. discriminate.
Qed.
Example outside_eliminated : memN 32%N (h_nodes (eliminated outside [])) = true /\ memN 33%N (h_nodes (eliminated outside [])) = false /\
  length (in_links (eliminated outside []) (32%N, 0)) = 0.
Proof. vm_compute. auto. Qed.
Lemma outside_op : h_ops (eliminated outside []) 32%N = bit_op 1.
Proof. vm_compute. reflexivity. Qed.
Lemma outside_root : h_root (eliminated outside []) = h_root outside.
Proof. vm_compute. reflexivity. Qed.
Theorem dce_block_entry_refuted : exists (h h' : hugr op N), wf h /\ valid no_types simple_ops h /\ dce default_for h [] = Some (Done h') /\ ~ valid no_types simple_ops h' /\ h_root h' = h_root h.
Proof.
  pose proof (eliminated_done outside [] outside_wf (fun n (F : In n []) => match F with end)) as Hd.
  pose proof outside_root as Hr. pose proof outside_op as Ho. destruct outside_eliminated as (Hn & _ & Hl). apply memN_iff in Hn.
  pose proof outside_wf as W. pose proof outside_valid as V_. revert Hd Hr Ho Hn Hl W V_.
  generalize (eliminated outside []) as h'. generalize outside as h. intros h h' Hd Hr Ho Hn Hl W V_.
  exists h, h'. split; [exact W|]. split; [exact V_|]. split; [exact Hd|]. split; [|exact Hr]. exact (unconnected h' 32%N 1 Hn Ho Hl).
Qed.
Print Assumptions dce_block_entry_refuted.
