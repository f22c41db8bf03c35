(** Constant folding keeps what functions compute. *)
From Coq Require Import List Bool NArith Arith Lia.
From Verif Require Import PValModel TagModel TypesModel GraphModel GraphSpec PValSpec PValProofs GraphProofs GraphRemove Graphs OpModel OpSpec DeadModel DeadSpec DeadProofs DeadProps InlineModel ReplaceModel ValidModel ValidSpec FlowModel FlowSpec FlowProofs FlowProps EmitGraph NormModel FoldModel FoldSpec FoldGraph FoldSim MirrorProofs CullProofs CullProps.
Import ListNotations.
Local Notation wf := GraphSpec.wf.
Local Notation below := GraphSpec.below.

Section Values.
  Context {W V E F : Type}.
  Variable meaning : V -> W.
  Variable sem : @semantics W E F.
  Variable leaf : V -> value E F.
  Variable sum_ok : N -> list (value E F) -> list (list vty) -> bool.
  Hypothesis HL : leaves_ok meaning sem leaf.

  (** A constant that is made of an abstract value is the only value it allows. *)
  Lemma into_sound (x : pv V N unit) : forall c t v, allows meaning x c -> into_value leaf sum_ok x t = Some v -> const_value sem v = c.
  Proof.
    unfold into_value. induction x as [| |w|n a|m IH] using pv_ind'; intros c t v Ha Hv; try discriminate.
    - cbn in Hv. injection Hv as <-. inversion Ha; subst. apply HL.
    - inversion Ha as [| | |m' k r cs Hin HF]; subst. destruct m as [|[k' r'] [|y m]]; try discriminate. destruct Hin as [[= -> ->]|[]].
      cbn in Hv. destruct t as [|rows]; [discriminate|]. destruct (nth_error rows (N.to_nat k)) as [ts|]; [|discriminate]. destruct (Nat.eqb (length r) (length ts)) eqn:El; [|discriminate].
      apply Nat.eqb_eq in El.
      assert (IH' : forall v, In v r -> forall c t w, allows meaning v c -> try_into (fun v => Some (leaf v)) (fun _ _ => None) (to_sum sum_ok) v t = Some w -> const_value sem w = c)
        by (intros v' Hv'; exact (IH k r v' (or_introl eq_refl) Hv')).
      match type of Hv with match ?X with _ => _ end = _ => destruct X as [ws|] eqn:Ee; [|discriminate] end. unfold to_sum in Hv. destruct (sum_ok k ws rows); [|discriminate]. injection Hv as <-.
      cbn. rewrite N2Nat.id. f_equal. clear IH Ha. revert ts ws El Ee. induction HF as [|v0 c0 r0 cs0 Hv0 HF IHF]; intros ts ws El Ee; destruct ts as [|t0 ts]; try discriminate.
      + injection Ee as <-. reflexivity.
      + destruct (try_into _ _ _ v0 t0) as [w0|] eqn:E0; [|discriminate].
        match type of Ee with option_map _ ?X = _ => destruct X as [ws0|] eqn:E1; [|discriminate] end. injection Ee as <-. cbn.
        rewrite (IH' v0 (or_introl eq_refl) c0 t0 w0 Hv0 E0). f_equal. apply (IHF (fun v' H => IH' v' (or_intror H)) ts ws0); [cbn in El; lia|exact E1].
  Qed.
End Values.

Section Wires.
  Context {V E F M : Type}.
  Notation hugr := (hugr op M).
  Variable leaf : V -> value E F.
  Variable sum_ok : N -> list (value E F) -> list (list vty) -> bool.
  Variable h : hugr.
  Variable s : @facts V.
  Hypothesis Wh : wf h.
  Notation wires_to_break := (wires_to_break leaf sum_ok).
  Notation try_read := (try_read leaf sum_ok).

  (** What is known of a wire to be broken. *)
  Record chosen (n : N) (ip : nat) (v : value E F) : Prop := {
    w_live : In n (h_nodes h);
    w_below : below h n (h_entry h);
    w_entry : n <> h_entry h;
    w_value : exists t, port_kind (h_ops h n) Inc ip = Some (EValue t);
    w_read : exists src p, single_linked_output h n ip = Some (src, p) /\ entry_input h src = false /\ try_read h s src p = Some v }.
  Lemma wires_chosen ws n ip v : wires_to_break h s = Some ws -> In (n, ip, v) ws -> chosen n ip v.
  Proof.
    intros Hw Hin. destruct (opt_flat_elem _ _ _ _ Hw Hin) as (m & b & Hm & Hb & Hinb). cbn beta in Hb.
    destruct (N.eqb_spec m (h_entry h)) as [_|Hne]; [injection Hb as <-; destruct Hinb|].
    destruct (opt_flat_elem _ _ _ _ Hb Hinb) as (j & b' & Hj & Hb' & Hinb'). unfold break_here in Hb'.
    destruct (port_kind (h_ops h m) Inc j) as [k|] eqn:Ek; [|injection Hb' as <-; destruct Hinb']. destruct k as [| |t| |]; try (injection Hb' as <-; destruct Hinb').
    destruct (single_linked_output h m j) as [[src p]|] eqn:Es; [|discriminate]. destruct (is_load_constant (h_ops h src) || entry_input h src) eqn:Ec; [injection Hb' as <-; destruct Hinb'|].
    destruct (try_read h s src p) as [v'|] eqn:Er; [|injection Hb' as <-; destruct Hinb']. injection Hb' as <-. destruct Hinb' as [[= <- <- <-]|[]].
    apply orb_false_iff in Ec as [_ Ec]. apply memN_iff in Hm. apply (desc_iff h Wh _ m (wf_entry _ Wh)) in Hm.
    constructor; [|exact Hm|exact Hne|eauto|exists src, p; auto]. unfold below in Hm. inversion Hm as [|? q ? Hq _]; subst; [apply (wf_entry _ Wh)|apply (wf_parent_live h Wh m q Hq)].
  Qed.

  Variable env : N -> N -> option typedef.
  Variable defs : N -> N -> opsig.
  Hypothesis V_ : valid env defs h.

  Lemma value_count o d i t : port_kind o d i = Some (EValue t) -> i < value_port_count o d.
  Proof.
    unfold port_kind. destruct (Nat.ltb_spec i (value_port_count o d)) as [H|H]; [auto|]. intros Hk. exfalso.
    destruct (Nat.eqb i (value_port_count o d)); [destruct (static_port_kind o d) eqn:Es|]; [|destruct d, o; discriminate|destruct d, o; discriminate].
    injection Hk as ->. destruct d, o; discriminate.
  Qed.
  Lemma cut_static n ip v i : chosen n ip v -> static_port (h_ops h n) Inc = Some i -> i <> ip.
  Proof.
    intros C Hs ->. destruct (w_value _ _ _ C) as (t & Hk). apply value_count in Hk. unfold static_port in Hs. destruct (static_port_kind _ _); [|discriminate]. injection Hs as <-. lia.
  Qed.
  Lemma chosen_kind n ip v : chosen n ip v -> exists t, kind_at h n Inc ip (EValue t).
  Proof.
    intros C. destruct (w_value _ _ _ C) as (t & Hk). apply value_count in Hk. destruct (w_read _ _ _ C) as (src & p & Hs & _). apply slo_link in Hs.
    destruct (v_links _ _ _ V_ _ _ _ _ Hs) as (k & _ & (ks & P & Hn) & _). apply (value_ports _ _ _ ip P) in Hk as (t' & Ht). exists t', ks. auto.
  Qed.
  Lemma cut_flow n ip v p : chosen n ip v -> h_parent h n = Some p -> flow_parent (h_ops h p) = true.
  Proof.
    intros C Hp. destruct (chosen_kind n ip v C) as (t & ks & Pk & Hn). pose proof (v_tree _ _ _ V_ n p Hp) as T. rewrite (ports_row _ _ _ Pk) in Hn. apply nth_error_In in Hn.
    assert (Hr : exists ins outs, region (h_ops h p) ins outs).
    { unfold layout_row in Hn. destruct T; try (exfalso; cbn in Hn; try (apply in_map_iff in Hn; destruct Hn as (? & ? & _); discriminate); intuition discriminate); eauto. }
    destruct Hr as (ins & outs & Hr). inversion Hr; reflexivity.
  Qed.
  Lemma cut_control n ip v b i : chosen n ip v -> is_block (h_ops h b) = true -> ~ In ((b, i), (n, ip)) (h_links h).
  Proof.
    intros C Hb Hl. destruct (v_links _ _ _ V_ _ _ _ _ Hl) as (k & Hkb & (ks & P & Hn) & _). destruct (w_value _ _ _ C) as (t & Hk). apply value_count in Hk.
    apply (value_ports _ _ _ ip P) in Hk as (t' & Ht). rewrite Ht in Hn. injection Hn as <-. apply value_at in Hkb. destruct (h_ops h b); try discriminate. cbn in Hkb. lia.
  Qed.
End Wires.

(** The HUGR with the broken wires. *)
Section Tidy.
  Context {E F M : Type}.
  Notation hugr := (hugr op M).
  Notation cut := (@cut E F).
  Variable type_of : value E F -> TypesModel.ty.
  Variable store : value E F -> N.
  Variable h h1 : hugr.
  Variable L : list cut.
  Hypothesis Wh : wf h.
  Hypothesis T : tidy h.
  Hypothesis B : broken type_of store h L h1.
  Hypothesis Hflow : forall k p, In k L -> h_parent h (k_node k) = Some p -> flow_parent (h_ops h p) = true.

  Lemma made_dec x : made L x \/ ~ made L x.
  Proof.
    destruct (in_dec N.eq_dec x (map k_const L ++ map k_load L)) as [H|H].
    - left. apply in_app_or in H as [H|H]; apply in_map_iff in H as (k & <- & Hk); exists k; auto.
    - right. intros (k & Hk & [->| ->]); apply H; apply in_or_app; [left|right]; apply in_map; exact Hk.
  Qed.
  Lemma made_op x : made L x -> (exists s t b, h_ops h1 x = OConst s t b) \/ (exists t, h_ops h1 x = OLoadConstant t).
  Proof. intros (k & Hk & [->| ->]); [left; rewrite (b_const _ _ _ _ _ B k Hk)|right; rewrite (b_load _ _ _ _ _ B k Hk)]; eauto. Qed.
  Lemma old_live x : In x (h_nodes h) -> ~ made L x.
  Proof. intros H Hm. exact (b_new _ _ _ _ _ B x Hm H). Qed.
  Lemma made_parent x p : made L x -> h_parent h1 x = Some p -> exists k, In k L /\ h_parent h (k_node k) = Some p.
  Proof. intros (k & Hk & Hx) Hp. exists k. split; [exact Hk|]. destruct (b_place _ _ _ _ _ B k Hk) as (q & Hq & H1 & H2). destruct Hx as [->| ->]; congruence. Qed.
  Ltac old n := destruct (made_dec n) as [Hm|Hm]; [exfalso; destruct (made_op n Hm) as [(? & ? & ? & Hmo)|(? & Hmo)]; try rewrite Hmo in *; (discriminate || contradiction)|].

  Lemma tidy_broken : tidy h1.
  Proof.
    constructor.
    - intros n Hn Hf. old n. rewrite (b_ops _ _ _ _ _ B n Hm) in Hf. apply (b_nodes _ _ _ _ _ B) in Hn as [Hn|Hn]; [|contradiction].
      destruct (t_region _ T n Hn Hf) as (a & b & rest & Hk & Ha & Hb). destruct (b_kids _ _ _ _ _ B n) as (new & Hk1 & _). rewrite Hk in Hk1.
      exists a, b, (rest ++ new). split; [exact Hk1|]. assert (Hla : In a (h_nodes h)) by (apply (wf_parent_live h Wh a n); apply (wf_kids _ Wh); rewrite Hk; left; reflexivity).
      assert (Hlb : In b (h_nodes h)) by (apply (wf_parent_live h Wh b n); apply (wf_kids _ Wh); rewrite Hk; right; left; reflexivity).
      rewrite (b_ops _ _ _ _ _ B a (old_live a Hla)), (b_ops _ _ _ _ _ B b (old_live b Hlb)). auto.
    - intros n rows oi ou c Ho Hc. old n. pose proof Ho as Ho'. rewrite (b_ops _ _ _ _ _ B n Hm) in Ho'. apply (wf_kids _ (b_wf _ _ _ _ _ B)) in Hc.
      destruct (made_dec c) as [Hmc|Hmc].
      + exfalso. destruct (made_parent c n Hmc Hc) as (k & Hk & Hp). pose proof (Hflow k n Hk Hp) as Hf. rewrite Ho' in Hf. discriminate.
      + rewrite (b_ops _ _ _ _ _ B c Hmc). rewrite (b_parent _ _ _ _ _ B c Hmc) in Hc. apply (t_cond _ T n rows oi ou c Ho'). apply (wf_kids _ Wh). exact Hc.
    - intros n g Hn Ho. old n. rewrite (b_ops _ _ _ _ _ B n Hm) in Ho. apply (b_nodes _ _ _ _ _ B) in Hn as [Hn|Hn]; [|contradiction].
      destruct (t_cfg _ T n g Hn Ho) as (a & b & rest & Hk & Ha & Hb). destruct (b_kids _ _ _ _ _ B n) as (new & Hk1 & _). rewrite Hk in Hk1.
      exists a, b, (rest ++ new). split; [exact Hk1|]. assert (Hla : In a (h_nodes h)) by (apply (wf_parent_live h Wh a n); apply (wf_kids _ Wh); rewrite Hk; left; reflexivity).
      assert (Hlb : In b (h_nodes h)) by (apply (wf_parent_live h Wh b n); apply (wf_kids _ Wh); rewrite Hk; right; left; reflexivity).
      rewrite (b_ops _ _ _ _ _ B a (old_live a Hla)), (b_ops _ _ _ _ _ B b (old_live b Hlb)). auto.
    - intros c p Hp. destruct (made_dec c) as [Hmc|Hmc].
      + destruct (made_parent c p Hmc Hp) as (k & Hk & Hkp). pose proof (Hflow k p Hk Hkp) as Hf. rewrite (b_ops _ _ _ _ _ B p); [destruct (h_ops h p); try discriminate; exact Logic.I|].
        apply old_live. apply (wf_parent_live h Wh _ p Hkp).
      + rewrite (b_parent _ _ _ _ _ B c Hmc) in Hp. rewrite (b_ops _ _ _ _ _ B p); [apply (t_inner _ T c p Hp)|]. apply old_live. apply (wf_parent_live h Wh _ p Hp).
    - intros a i b j p Hl Hp. assert (Hup : forall x y, ~ made L x -> below h x y -> below h1 x y).
      { intros x y Hx U. apply (up_mono (h_parent h)); [|exact U]. intros u v Huv. rewrite (b_parent _ _ _ _ _ B); [exact Huv|]. apply old_live. apply (wf_parent_live h Wh u v Huv). }
      destruct (b_links _ _ _ _ _ B _ Hl) as [Hold|(k & Hk & [X|X])].
      + destruct (links_live h a i b j Wh Hold) as [Ha Hb]. rewrite (b_parent _ _ _ _ _ B a (old_live a Ha)) in Hp. assert (Hpl : In p (h_nodes h)) by apply (wf_parent_live h Wh a p Hp).
        rewrite (b_ops _ _ _ _ _ B p (old_live p Hpl)), (b_parent _ _ _ _ _ B p (old_live p Hpl)).
        destruct (t_links _ T a i b j p Hold Hp) as [H|(H1 & q & H2 & H3)]; [left; apply Hup; [apply old_live; exact Hb|exact H]|right]. split; [exact H1|]. exists q. split; [exact H2|].
        apply Hup; [apply old_live; exact Hb|exact H3].
      + injection X as -> -> -> ->. destruct (b_place _ _ _ _ _ B k Hk) as (q & Hq & H1 & H2). left. rewrite H1 in Hp. injection Hp as <-. eapply up_next; [exact H2|constructor].
      + injection X as -> -> -> ->. destruct (b_place _ _ _ _ _ B k Hk) as (q & Hq & H1 & H2). left. rewrite H2 in Hp. injection Hp as <-.
        eapply up_next; [rewrite (b_parent _ _ _ _ _ B); [exact Hq|]|constructor]. apply old_live. apply (b_old _ _ _ _ _ B k Hk).
    - intros a i b j s t Hl Hs Ht Hc. destruct (b_links _ _ _ _ _ B _ Hl) as [Hold|(k & Hk & [X|X])].
      + destruct (links_live h a i b j Wh Hold) as [Ha Hb]. rewrite (b_parent _ _ _ _ _ B a (old_live a Ha)), (b_parent _ _ _ _ _ B b (old_live b Hb)). rewrite (b_ops _ _ _ _ _ B a (old_live a Ha)) in Hs.
        exact (t_linear _ T a i b j s t Hold Hs Ht Hc).
      + injection X as -> -> -> ->. destruct (b_place _ _ _ _ _ B k Hk) as (q & Hq & H1 & H2). congruence.
      + injection X as -> -> -> ->. destruct (b_place _ _ _ _ _ B k Hk) as (q & Hq & H1 & H2). rewrite H2, (b_parent _ _ _ _ _ B); [congruence|]. apply old_live. apply (b_old _ _ _ _ _ B k Hk).
    - intros f p Hp Hf. old f. rewrite (b_ops _ _ _ _ _ B f Hm) in Hf. rewrite (b_parent _ _ _ _ _ B f Hm) in Hp. rewrite (b_root _ _ _ _ _ B). exact (t_fun _ T f p Hp Hf).
  Qed.
End Tidy.
