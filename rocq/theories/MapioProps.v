(** Theorems about changing the signature of a dataflow graph. *)
From Coq Require Import List Bool NArith Arith Lia Permutation.
From Verif Require Import TypesModel GraphModel GraphSpec GraphProofs GraphRemove OpModel OpSpec DeadModel DeadSpec DeadProps InlineModel InlineProofs ReplaceModel ValidModel ValidSpec ValidProps MapioModel MapioSpec MapioProofs MapioMain.
From Verif Require EmitGraph.
Import ListNotations.
Local Notation wf := GraphSpec.wf.

Section Theorems.
  Context {M : Type}.
  Notation hugr := (hugr op M).
  Variable env : N -> N -> option typedef.
  Variable defs : N -> N -> opsig.
  Variable shuffle : list nat -> list nat.
  Hypothesis Hsh : forall l, Permutation (shuffle l) l.

  Lemma explained (h : hugr) i r s ins outs e : explains h i r s ins outs e -> ~ good_map h i r s ins outs.
  Proof.
    intros X G. destruct e as [k []|k []|k|k|k]; cbn in X.
    - destruct X as [A (t & Ht & Hl)]. pose proof (gm_linear_out _ _ _ _ _ _ G k t Ht Hl) as C. apply (count_occ_not_In Nat.eq_dec) in A. lia.
    - destruct X as [A [(d & Hd)|(t & Ht & Hl)]]; apply A; [eapply (gm_used _ _ _ _ _ _ G); eassumption|eapply (gm_linear_in _ _ _ _ _ _ G); eassumption].
    - destruct X as [A B]. pose proof (gm_known_out _ _ _ _ _ _ G k A). lia.
    - destruct X as [A B]. pose proof (gm_known_in _ _ _ _ _ _ G k A). lia.
    - destruct X as [A (t & Ht & Hl)]. pose proof (gm_linear_out _ _ _ _ _ _ G k t Ht Hl). lia.
    - pose proof (proj1 (NoDup_count_occ Nat.eq_dec ins) (gm_once _ _ _ _ _ _ G) k). lia.
    - exact X.
  Qed.

  Section Fn.
    Variable h : hugr.
    Variables (f i o nm : N) (sg : poly) (pub : bool).
    Hypothesis W : wf h.
    Hypothesis V : valid env defs h.
    Hypothesis Of : h_ops h f = OFuncDefn nm sg pub.
    Hypothesis Io : get_io h f = Some (i, o).
    Variables ins outs : list nat.

    Lemma mapped_wf h' : good_map h i (p_ins sg) (p_outs sg) ins outs -> io_mapped h f i o nm sg pub ins outs h' -> wf h'.
    Proof.
      intros G X. destruct X as [X1 X2 X3 X4 X5 X6 X7 X8 (P1 & P2 & P3 & P4 & P5 & P6) X10 X11].
      destruct (fn_live h f i o W Io) as (Lf & Li & Lo). destruct (fn_ports env defs h f i o nm sg pub W V Of Io) as (Q1 & Q2 & Q3 & Q4 & Q5 & Q6). destruct (fn_distinct env defs h f i o nm sg pub W V Of Io) as (D1 & D2 & D3).
      assert (Src : forall l, In l (h_links h) -> out_port h' (moved i ins (fst l))).
      { intros [[n p] d] Hl. destruct (wf_links _ W _ Hl) as [[A B] _]. pose proof (from_o env defs h f i o nm sg pub W V Of Io _ Hl) as Z. cbn in A, B, Z. unfold moved. cbn [fst snd]. destruct (N.eqb_spec n i) as [->|Hn].
        - split; cbn [fst snd]; [now rewrite X1|]. rewrite P4. assert (Hp : In p ins) by (eapply (gm_used _ _ _ _ _ _ G); exact Hl).
          assert (place p ins < length ins) by (apply nth_error_Some; rewrite (place_nth _ _ Hp); congruence). lia.
        - split; cbn [fst snd]; [now rewrite X1|]. destruct (N.eq_dec n f) as [->|Hf]; [rewrite P2; lia|]. destruct (X7 n Hf Hn Z) as (_ & _ & ->). exact B. }
      constructor; rewrite ?X1, ?X2, ?X3, ?X5, ?X6; try apply W.
      intros l Hl. apply (Permutation_in _ X10) in Hl. unfold expected_links in Hl. apply in_app_or in Hl as [Hl|Hl].
      - apply in_map_iff in Hl as (l0 & <- & Hl). apply filter_In in Hl as [Hl Hn]. apply negb_true_iff, N.eqb_neq in Hn. split; [apply Src, Hl|]. cbn [snd]. destruct (wf_links _ W _ Hl) as [_ [A B]].
        split; [now rewrite X1|]. destruct (N.eq_dec (fst (snd l0)) f) as [E|Hf]; [rewrite E in B; lia|]. pose proof (from_i env defs h f i o nm sg pub W V Of Io _ Hl) as Z.
        destruct (X7 _ Hf Z Hn) as (_ & -> & _). exact B.
      - apply in_flat_map in Hl as ([q k] & He & Hl). apply in_map_iff in Hl as (l0 & <- & Hl). apply filter_In in Hl as [Hl _]. split; [apply Src, Hl|]. cbn [fst snd]. split; cbn [fst snd]; [now rewrite X1|].
        rewrite P5. apply in_combine_l, in_seq in He. lia.
    Qed.

    Hypothesis En : h_entry h = f.
    Lemma map_core : match map_function_type shuffle h ins outs with
      | Mapped h' => good_map h i (p_ins sg) (p_outs sg) ins outs /\ io_mapped h f i o nm sg pub ins outs h'
      | BadMap e => explains h i (p_ins sg) (p_outs sg) ins outs e
      | MapPanic => False
      end.
    Proof.
      destruct (fn_live h f i o W Io) as (Lf & Li & Lo). destruct (fn_ops env defs h f i o nm sg pub W V Of Io) as [Oi Oo].
      destruct (fn_ports env defs h f i o nm sg pub W V Of Io) as (Q1 & Q2 & Q3 & Q4 & Q5 & Q6). destruct (fn_distinct env defs h f i o nm sg pub W V Of Io) as (D1 & D2 & D3).
      unfold map_function_type. rewrite En, Io, Oi, Oo. cbn [dataflow_signature].
      pose proof (check_in shuffle Hsh h i (p_ins sg) (p_outs sg) ins outs W Q4) as C. destruct (check_valid_inputs _ _ _ _) as [e|]; [exact C|]. destruct C as (C1 & C2 & C3 & C4).
      pose proof (check_out h i (p_ins sg) (p_outs sg) ins outs) as C. destruct (check_valid_outputs _ _) as [e|]; [exact C|]. destruct C as (C5 & C6).
      assert (G : good_map h i (p_ins sg) (p_outs sg) ins outs) by (constructor; assumption).
      destruct (pick_total _ _ C1) as (r & Er). destruct (pick_total _ _ C5) as (s & Es). rewrite Er, Es. apply picked_some in Er, Es.
      rewrite disconnect_all_eq by assumption.
      rewrite disconnect_all_eq; [|constructor; try apply W; intros l Hl; cbn in Hl; apply filter_In in Hl as [Hl _]; destruct (wf_links _ W _ Hl) as [A B]; split; [exact A|exact B]|exact Lo].
      cbn [set_links h_nodes h_entry h_links]. rewrite En.
      match goal with |- context [update_signatures _ _ _ ?X _] => change X with (set_links h (apart h i o)) end.
      destruct (length (h_nodes h)) as [|fuel] eqn:Len; [destruct (h_nodes h); [destruct Lf|discriminate]|].
      rewrite (update_all env defs h f i o nm sg pub W V Of Io r s fuel).
      rewrite (in_rows env defs h f i o nm sg pub W V Of Io ins outs G r s Er Es).
      rewrite (out_rows env defs h f i o nm sg pub W V Of Io ins outs G r s _ Er Es).
      split; [exact G|]. constructor; try reflexivity.
      - intros n Hf Hi Ho. cbn. rewrite !upd_other by assumption. auto.
      - exists r, s. cbn. split; [exact Er|]. split; [exact Es|]. split; [|split].
        + rewrite upd_other by congruence. rewrite upd_other by congruence. apply upd_same.
        + rewrite upd_other by congruence. apply upd_same.
        + apply upd_same.
      - cbn. unfold upd. rewrite !N.eqb_refl. rewrite !(proj2 (N.eqb_neq _ _)) by congruence. rewrite (picked_length _ _ _ Er), (picked_length _ _ _ Es). auto 10.
      - cbn [set_links h_links]. rewrite <- app_assoc. exact (links_expected env defs h f i o nm sg pub W V Of Io ins outs G).
      - intros n k Hn Hi. unfold in_links at 1. cbn [set_links h_links]. rewrite <- app_assoc. exact (links_kept env defs h f i o nm sg pub W V Of Io ins outs n k Hn Hi).
    Qed.

    (** ** C64 *)
    (** The signature of a function in a valid HUGR, which is the entry point, can be changed exactly if the map is good; then the result is well formed, the function takes and gives
        what the map says, and nothing else has changed. *)
    Theorem map_function_maps : (good_map h i (p_ins sg) (p_outs sg) ins outs <-> exists h', map_function_type shuffle h ins outs = Mapped h') /\
      (forall h', map_function_type shuffle h ins outs = Mapped h' -> wf h' /\ io_mapped h f i o nm sg pub ins outs h').
    Proof.
      pose proof map_core as C. destruct (map_function_type shuffle h ins outs) as [h'|e|] eqn:E; [|split; [split|]|destruct C].
      - destruct C as [G X]. split; [split; eauto|]. intros h2 [= <-]. split; [eapply mapped_wf; eassumption|exact X].
      - intros G. destruct (explained _ _ _ _ _ _ _ C G).
      - intros (h' & [=]).
      - intros h' [=].
    Qed.
    (** Otherwise there is an error, which says what is wrong; there is no panic. *)
    Theorem map_function_errors : ~ good_map h i (p_ins sg) (p_outs sg) ins outs -> exists e, map_function_type shuffle h ins outs = BadMap e /\ explains h i (p_ins sg) (p_outs sg) ins outs e.
    Proof. pose proof map_core as C. destruct (map_function_type shuffle h ins outs) as [h'|e|]; [tauto|eauto|tauto]. Qed.

    (** Inputs can be added to a function if their types are copyable; the first type that is not is reported. *)
    Theorem extend_inputs_extends more : (forall t, In t more -> lub t = Copyable) ->
      exists h', extend_inputs h more = Mapped h' /\ io_extended h f i o nm sg pub more h'.
    Proof.
      intros Hc. destruct (fn_live h f i o W Io) as (Lf & Li & Lo). destruct (fn_ops env defs h f i o nm sg pub W V Of Io) as [Oi Oo].
      destruct (fn_ports env defs h f i o nm sg pub W V Of Io) as (Q1 & Q2 & Q3 & Q4 & Q5 & Q6). destruct (fn_distinct env defs h f i o nm sg pub W V Of Io) as (D1 & D2 & D3).
      unfold extend_inputs. rewrite En, Of. cbn [inner_signature].
      destruct (find _ (enumerate more)) as [[k t]|] eqn:F.
      { apply find_some in F as [A B]. apply enum_in, nth_error_In in A. apply Hc in A. cbn in B. unfold copyable in B. rewrite A in B. discriminate. }
      destruct (length (h_nodes h)) as [|fuel] eqn:Len; [destruct (h_nodes h); [destruct Lf|discriminate]|].
      assert (E : set_links h (h_links h) = h) by (destruct h; reflexivity).
      pose proof (update_at env defs h f i o nm sg pub W V Of Io (h_links h) (p_ins sg ++ more) (p_outs sg) fuel) as U. rewrite E in U.
      match goal with |- context [update_signatures ?a ?b ?c ?d ?e] => replace (update_signatures a b c d e) with (Some (resigned_at h f i o nm pub (h_links h) (p_ins sg ++ more) (p_outs sg))); [|symmetry; apply U] end.
      - eexists. split; [reflexivity|]. constructor; try reflexivity; cbn [resigned_at h_ops h_in h_out].
        + intros n Hf Hi. destruct (N.eq_dec n o) as [->|Ho]; [rewrite !upd_same, Oo, Q5, Q6; auto|]. rewrite !upd_other by assumption. auto.
        + split; [|rewrite upd_other by congruence; apply upd_same]. rewrite upd_other by congruence. rewrite upd_other by congruence. apply upd_same.
        + unfold upd. rewrite !N.eqb_refl. rewrite !(proj2 (N.eqb_neq _ _)) by congruence. rewrite app_length. auto.
      - auto.
      - intros l Hl. destruct (wf_links _ W _ Hl) as [[_ A] [_ B]]. split; intros X; rewrite X in *; [rewrite app_length|]; lia.
    Qed.
    Theorem extend_inputs_refuses more k t : nth_error more k = Some t -> lub t = Linear -> (forall j u, j < k -> nth_error more j = Some u -> lub u = Copyable) ->
      extend_inputs h more = BadMap (ExpectedCopyable (length (p_ins sg) + k)).
    Proof.
      intros Ht Hl Hb. unfold extend_inputs. rewrite En, Of. cbn [inner_signature].
      assert (F : forall (a : nat) (l : list TypesModel.ty) (k : nat), nth_error l k = Some t -> (forall j u, j < k -> nth_error l j = Some u -> lub u = Copyable) ->
        find (fun e : nat * TypesModel.ty => negb (copyable (snd e))) (combine (seq a (length l)) l) = Some (a + k, t)).
      { intros a l. revert a. clear Ht Hb. induction l as [|x l IH]; intros a k' H1 H2; [destruct k'; discriminate|]. cbn [length seq combine find snd]. destruct k' as [|k'].
        - cbn in H1. injection H1 as ->. apply not_copyable in Hl. rewrite Hl. cbn. now rewrite Nat.add_0_r.
        - pose proof (H2 0 x (Nat.lt_0_succ _) eq_refl) as Hx. unfold copyable at 1. rewrite Hx. cbn [bcontains negb]. rewrite (IH (S a) k' H1); [f_equal; f_equal; lia|]. intros j u Hj Hu. apply (H2 (S j) u); [lia|exact Hu]. }
      unfold enumerate. rewrite (F 0 more k Ht Hb). reflexivity.
    Qed.
  End Fn.
End Theorems.
Print Assumptions map_function_maps.
Print Assumptions map_function_errors.
Print Assumptions extend_inputs_extends.
Print Assumptions extend_inputs_refuses.

(** ** Examples *)
Definition qubit : TypesModel.ty := TypesModel.TAlias 2 Linear.
Definition mixed_row : row := [bit; qubit; bit].
Definition mixed_sig : poly := {| p_params := []; p_ins := mixed_row; p_outs := mixed_row |}.
(** Two outputs are copies of a value, the last input is not used. *)
Definition mixed : hugr op N := graph_of (make
  [AddChild 1%N 0%N (OFuncDefn 1 mixed_sig true); AddChild 2%N 1%N (OInput mixed_row); AddChild 3%N 1%N (OOutput mixed_row); AddChild 4%N 1%N (bit_op 0);
   Connect 2%N 0 4%N 0; Connect 4%N 0 3%N 0; Connect 2%N 1 3%N 1; Connect 4%N 0 3%N 2; SetEntry 1%N]).
Definition same (l : list nat) : list nat := l.
Definition result {M} (h : hugr op M) (r : mapped) : hugr op M := match r with Mapped h' => h' | _ => h end.
Definition is_mapped {M} (r : @mapped M) : bool := match r with Mapped _ => true | _ => false end.
Lemma mapped_result {M} (h : hugr op M) r : is_mapped r = true -> r = Mapped (result h r).
Proof. destruct r; [reflexivity|discriminate|discriminate]. Qed.
Example mixed_ok : wf mixed /\ valid no_types simple_ops mixed.
Proof. assert (W : wf mixed) by (apply built_wf; vm_compute; tauto). split; [exact W|]. apply validate_accepts; [exact W|]. vm_compute. reflexivity. Qed.
(** The first two inputs change places, the first output goes. *)
Example mixed_mapped : let r := map_function_type same mixed [1; 0] [2; 1] in is_mapped r = true /\
  h_ops (result mixed r) 1%N = OFuncDefn 1 {| p_params := []; p_ins := [qubit; bit]; p_outs := [bit; qubit] |} true /\
  h_links (result mixed r) = [((2%N, 1), (4%N, 0)); ((4%N, 0), (3%N, 0)); ((2%N, 0), (3%N, 1))] /\ validate no_types simple_ops (result mixed r) = VOk.
Proof. vm_compute. repeat split. Qed.
Example mixed_errors : map_function_type same mixed [1; 3] [1] = BadMap (UnknownIO 3 false) /\ map_function_type same mixed [1; 0] [1; 4] = BadMap (UnknownIO 4 true) /\
  map_function_type same mixed [0] [1] = BadMap (MissingIO 1 false) /\ map_function_type same mixed [1; 0; 1] [1] = BadMap (DuplicateInput 1) /\
  map_function_type same mixed [1; 0] [0] = BadMap (MissingIO 1 true) /\ map_function_type same mixed [1; 0] [1; 1] = BadMap (LinearityViolation 1) /\
  extend_inputs mixed [bit; qubit] = BadMap (ExpectedCopyable 4) /\ is_mapped (extend_inputs mixed [bit]) = true /\
  validate no_types simple_ops (result mixed (extend_inputs mixed [bit])) = VOk.
Proof. vm_compute. repeat split. Qed.

(** ** Disagreements *)
(** An order edge from the input node makes even the map that changes nothing fail, with an input that does not exist. *)
Definition ordered : hugr op N := graph_of (make
  [AddChild 1%N 0%N (fn 1); AddChild 2%N 1%N (OInput [bit]); AddChild 3%N 1%N (OOutput [bit]); AddChild 4%N 1%N (bit_op 0);
   Connect 2%N 0 4%N 0; Connect 4%N 0 3%N 0; Connect 2%N 1 4%N 1; SetEntry 1%N]).
Lemma ordered_facts : validate no_types simple_ops ordered = VOk /\ h_ops ordered (h_entry ordered) = fn 1 /\ map_function_type same ordered [0] [0] = BadMap (MissingIO 1 false) /\
  is_mapped (extend_inputs ordered [bit]) = true /\ h_ops (result ordered (extend_inputs ordered [bit])) 2%N = OInput [bit; bit] /\
  h_ops (result ordered (extend_inputs ordered [bit])) 4%N = bit_op 0 /\ In ((2%N, 1), (4%N, 1)) (h_links (result ordered (extend_inputs ordered [bit]))).
Proof. vm_compute. repeat split; auto. Qed.
Lemma ordered_wf : wf ordered.
Proof. apply built_wf. vm_compute. tauto. Qed.
Theorem map_identity_refuted : exists (h : hugr op N) nm sg pub, wf h /\ valid no_types simple_ops h /\ h_ops h (h_entry h) = OFuncDefn nm sg pub /\
  map_function_type same h (seq 0 (length (p_ins sg))) (seq 0 (length (p_outs sg))) = BadMap (MissingIO (length (p_ins sg)) false).
Proof.
  pose proof ordered_wf as W. destruct ordered_facts as (Hv & Ho & Hm & _). revert W Hv Ho Hm. generalize ordered as h. intros h W Hv Ho Hm.
  exists h, 1%N, {| p_params := []; p_ins := [bit]; p_outs := [bit] |}, true. split; [exact W|]. split; [exact (proj1 (validate_accepts no_types simple_ops h W) Hv)|]. split; [exact Ho|exact Hm].
Qed.
Print Assumptions map_identity_refuted.

Lemma kind_differs (h : hugr op N) s p d q k k' ks ks' : In ((s, p), (d, q)) (h_links h) -> ports (h_ops h s) Out ks -> ports (h_ops h d) Inc ks' -> nth_error ks p = Some k -> nth_error ks' q = Some k' ->
  k <> k' -> ~ valid no_types simple_ops h.
Proof.
  intros L P Q A B D V_. destruct (v_links _ _ _ V_ _ _ _ _ L) as (k0 & (x & X1 & X2) & (y & Y1 & Y2) & _).
  rewrite (EmitGraph.ports_row _ _ _ X1) in X2. rewrite (EmitGraph.ports_row _ _ _ Y1) in Y2. rewrite (EmitGraph.ports_row _ _ _ P) in A. rewrite (EmitGraph.ports_row _ _ _ Q) in B. congruence.
Qed.
(** The order port of the input node is not moved when inputs are added: the order edge then begins at a value. *)
Theorem extend_inputs_valid_refuted : exists (h h' : hugr op N) t, wf h /\ valid no_types simple_ops h /\ lub t = Copyable /\ extend_inputs h [t] = Mapped h' /\ ~ valid no_types simple_ops h'.
Proof.
  pose proof ordered_wf as W. destruct ordered_facts as (Hv & _ & _ & Hm & H2 & H4 & Hl). apply (mapped_result ordered) in Hm. revert W Hv Hm H2 H4 Hl. generalize (result ordered (extend_inputs ordered [bit])) as h'. generalize ordered as h.
  intros h h' W Hv Hm H2 H4 Hl. exists h, h', bit. split; [exact W|]. split; [exact (proj1 (validate_accepts no_types simple_ops h W) Hv)|]. split; [reflexivity|]. split; [exact Hm|].
  eapply (kind_differs h' _ _ _ _ (EValue bit) EOrder); [exact Hl|rewrite H2; constructor|rewrite H4; constructor|reflexivity|reflexivity|discriminate].
Qed.
Print Assumptions extend_inputs_valid_refuted.

(** The calls of the function are not changed. *)
Definition called : hugr op N := graph_of (make
  [AddChild 1%N 0%N (fn 1); AddChild 2%N 1%N (OInput [bit]); AddChild 3%N 1%N (OOutput [bit]); Connect 2%N 0 3%N 0;
   AddChild 4%N 0%N (fn 2); AddChild 5%N 4%N (OInput [bit]); AddChild 6%N 4%N (OOutput [bit]); AddChild 7%N 4%N call_op;
   Connect 5%N 0 7%N 0; Connect 1%N 0 7%N 1; Connect 7%N 0 6%N 0; SetEntry 1%N]).
Lemma called_facts : let h' := result called (map_function_type same called [0] [0; 0]) in validate no_types simple_ops called = VOk /\ is_mapped (map_function_type same called [0] [0; 0]) = true /\
  h_ops h' 1%N = OFuncDefn 1 {| p_params := []; p_ins := [bit]; p_outs := [bit; bit] |} true /\ h_ops h' 7%N = call_op /\ In ((1%N, 0), (7%N, 1)) (h_links h').
Proof. vm_compute. repeat split; tauto. Qed.
Lemma called_wf : wf called.
Proof. apply built_wf. vm_compute. tauto. Qed.
Theorem map_function_callers_refuted : exists (h h' : hugr op N) ins outs, wf h /\ valid no_types simple_ops h /\ map_function_type same h ins outs = Mapped h' /\ ~ valid no_types simple_ops h'.
Proof.
  pose proof called_wf as W. destruct called_facts as (Hv & Hm & H1 & H7 & Hl). apply (mapped_result called) in Hm. revert W Hv Hm H1 H7 Hl. generalize (result called (map_function_type same called [0] [0; 0])) as h'. generalize called as h.
  intros h h' W Hv Hm H1 H7 Hl. exists h, h', [0], [0; 0]. split; [exact W|]. split; [exact (proj1 (validate_accepts no_types simple_ops h W) Hv)|]. split; [exact Hm|].
  eapply (kind_differs h'); [exact Hl|rewrite H1; constructor|rewrite H7; constructor|reflexivity|reflexivity|discriminate].
Qed.
Print Assumptions map_function_callers_refuted.

(** If the entry point is a loop, its boundary nodes keep their types although their edges are moved. *)
Definition looped : hugr op N := graph_of (make
  [AddChild 1%N 0%N (OFuncDefn 1 {| p_params := []; p_ins := [bit; qubit]; p_outs := [bit; qubit] |} true); AddChild 2%N 1%N (OInput [bit; qubit]); AddChild 3%N 1%N (OOutput [bit; qubit]);
   AddChild 4%N 1%N (OTailLoop [] [] [bit; qubit]); AddChild 5%N 4%N (OInput [bit; qubit]); AddChild 6%N 4%N (OOutput [new_sum two; bit; qubit]); AddChild 7%N 4%N (OTag 1 two);
   Connect 2%N 0 4%N 0; Connect 2%N 1 4%N 1; Connect 4%N 0 3%N 0; Connect 4%N 1 3%N 1;
   Connect 7%N 0 6%N 0; Connect 5%N 0 6%N 1; Connect 5%N 1 6%N 2; SetEntry 4%N]).
Lemma looped_facts : let h' := result looped (map_function_type same looped [1; 0] [0; 1; 2]) in validate no_types simple_ops looped = VOk /\ is_mapped (map_function_type same looped [1; 0] [0; 1; 2]) = true /\
  h_ops h' 5%N = OInput [bit; qubit] /\ h_ops h' 6%N = OOutput [new_sum two; bit; qubit] /\ In ((5%N, 0), (6%N, 2)) (h_links h') /\ h_ops looped (h_entry looped) = OTailLoop [] [] [bit; qubit].
Proof. vm_compute. repeat split; tauto. Qed.
Lemma looped_wf : wf looped.
Proof. apply built_wf. vm_compute. tauto. Qed.
Theorem map_loop_refuted : exists (h h' : hugr op N) ins outs, wf h /\ valid no_types simple_ops h /\ flow_parent (h_ops h (h_entry h)) = true /\ map_function_type same h ins outs = Mapped h' /\ ~ valid no_types simple_ops h'.
Proof.
  pose proof looped_wf as W. destruct looped_facts as (Hv & Hm & H5 & H6 & Hl & He). apply (mapped_result looped) in Hm. revert W Hv Hm H5 H6 Hl He. generalize (result looped (map_function_type same looped [1; 0] [0; 1; 2])) as h'. generalize looped as h.
  intros h h' W Hv Hm H5 H6 Hl He. exists h, h', [1; 0], [0; 1; 2]. split; [exact W|]. split; [exact (proj1 (validate_accepts no_types simple_ops h W) Hv)|]. split; [rewrite He; reflexivity|]. split; [exact Hm|].
  eapply (kind_differs h'); [exact Hl|rewrite H5; constructor|rewrite H6; constructor|reflexivity|reflexivity|discriminate].
Qed.
Print Assumptions map_loop_refuted.

(** In a function around the graph the edges are drawn anew, from each input to the input with the same number: the map that changes nothing changes the function. *)
Definition crossed : hugr op N := graph_of (make
  [AddChild 1%N 0%N (OFuncDefn 1 {| p_params := []; p_ins := [bit; bit]; p_outs := [bit; bit] |} true); AddChild 2%N 1%N (OInput [bit; bit]); AddChild 3%N 1%N (OOutput [bit; bit]);
   AddChild 4%N 1%N (ODfg ([bit; bit], [bit; bit])); AddChild 5%N 4%N (OInput [bit; bit]); AddChild 6%N 4%N (OOutput [bit; bit]); AddChild 7%N 4%N (bit_op 0);
   Connect 2%N 1 4%N 0; Connect 2%N 0 4%N 1; Connect 4%N 0 3%N 0; Connect 4%N 1 3%N 1; Connect 5%N 0 7%N 0; Connect 7%N 0 6%N 0; Connect 5%N 1 6%N 1; SetEntry 4%N]).
Lemma crossed_facts : let h' := result crossed (map_function_type same crossed [0; 1] [0; 1]) in validate no_types simple_ops crossed = VOk /\ is_mapped (map_function_type same crossed [0; 1] [0; 1]) = true /\
  h_ops crossed (h_entry crossed) = ODfg ([bit; bit], [bit; bit]) /\ linked_outputs crossed (h_entry crossed) 0 = [(2%N, 1)] /\ linked_outputs h' (h_entry crossed) 0 = [(2%N, 0)].
Proof. vm_compute. repeat split. Qed.
Lemma crossed_wf : wf crossed.
Proof. apply built_wf. vm_compute. tauto. Qed.
Theorem map_nested_refuted : exists (h h' : hugr op N) s, wf h /\ valid no_types simple_ops h /\ h_ops h (h_entry h) = ODfg s /\
  map_function_type same h (seq 0 (length (fst s))) (seq 0 (length (snd s))) = Mapped h' /\ exists k e e', linked_outputs h (h_entry h) k = [e] /\ linked_outputs h' (h_entry h) k = [e'] /\ e <> e'.
Proof.
  pose proof crossed_wf as W. destruct crossed_facts as (Hv & Hm & Ho & H1 & H2). apply (mapped_result crossed) in Hm. revert W Hv Hm Ho H1 H2. generalize (result crossed (map_function_type same crossed [0; 1] [0; 1])) as h'. generalize crossed as h.
  intros h h' W Hv Hm Ho H1 H2. exists h, h', ([bit; bit], [bit; bit]). split; [exact W|]. split; [exact (proj1 (validate_accepts no_types simple_ops h W) Hv)|]. split; [exact Ho|]. split; [exact Hm|].
  exists 0, (2%N, 1), (2%N, 0). split; [exact H1|]. split; [exact H2|discriminate].
Qed.
Print Assumptions map_nested_refuted.
