(** The code of a node, and of a region, does what the node, and the region, does. *)
From Coq Require Import List Bool NArith Arith Lia.
From Verif Require Import PValModel PValSpec TypesModel GraphModel GraphSpec GraphProofs GraphBfs Graphs InsertForest OpModel OpSpec OpProofs DeadModel InlineModel ReplaceModel PValProofs
  ValidModel ValidSpec ValidProofs ValidNodes ValidEdges ValidProps FlowModel FlowSpec EmitModel EmitSpec EmitGraph EmitGrow EmitRun.
Import ListNotations.
Open Scope nat_scope.

Lemma nth_map_inv : forall {A B} (f : A -> B) l k y, nth_error (map f l) k = Some y -> exists x, nth_error l k = Some x /\ f x = y.
Proof. intros A B f. induction l as [|a l IH]; intros [|k] y X; try discriminate; cbn in *; [injection X as <-; eauto|now apply IH]. Qed.

Section Sim.
  Context {W V E F M : Type}.
  Notation conc := (conc W N unit).
  Notation st := (st E).
  Notation frame := (@frame W).
  Notation mem := (@mem W).
  Notation registers := (@registers W).
  Variable tenv : N -> N -> option typedef.
  Variable defs : N -> N -> opsig.
  Variable h : hugr op M.
  Hypothesis Wf : GraphSpec.wf h.
  Hypothesis Va : valid tenv defs h.
  Variable sem : @semantics W E F.
  Variable ctx : @context V E F.
  Variable handled : N -> bool.
  Variable run_op : N -> list conc -> list conc -> Prop.
  Hypothesis Ops : ops_correct sem ctx h run_op.

  Notation run := (exec (ext_value sem) run_op (emitted ctx h handled) (externs sem h)).

  (** ** Frames *)
  Definition reach (fr fr' : frame) : Prop := forall r k, all_steps sem ctx h ((fr, r) :: k) ((fr', r) :: k).

  Lemma all_trans : forall a b c, all_steps sem ctx h a b -> all_steps sem ctx h b c -> all_steps sem ctx h a c.
  Proof. intros a b c A B. revert A. induction B as [|x y z B IH S]; intros A; [exact A|]. exact (all_more _ _ _ _ _ _ (IH A) S). Qed.
  Lemma reach_refl : forall fr, reach fr fr.
  Proof. intros fr r k. constructor. Qed.
  Lemma reach_trans : forall a b c, reach a b -> reach b c -> reach a c.
  Proof. intros a b c A B r k. exact (all_trans _ _ _ (A r k) (B r k)). Qed.
  Lemma reach_step : forall fr fr', local_step sem ctx h fr fr' -> reach fr fr'.
  Proof. intros fr fr' S r k. eapply all_more; [constructor|left; now constructor]. Qed.

  Definition func_start (fr : frame) : Prop := exists nm sg pub, h_ops h (start fr) = OFuncDefn nm sg pub.
  Lemma inputs_plain : forall fr n cs, func_start fr ->
    inputs h fr n cs <-> length cs = in_count h n /\ forall i c, nth_error cs i = Some c -> arrives h fr n i c.
  Proof.
    intros fr n cs (nm & sg & pub & Of). unfold inputs. destruct (N.eqb_spec n (start fr)) as [->|]; [|reflexivity]. rewrite Of. reflexivity.
  Qed.

  Definition held (fr : frame) (m : mem) (s : N) : Prop :=
    exists row, env fr s = Some row /\ length row = out_count h s /\ forall p c, nth_error row p = Some c -> m (Wire s p) = Some c.
  Definition ready (fr : frame) (m : mem) (n : N) : Prop :=
    forall d i s q, below h d n -> uses h d i s q -> ~ below h s n -> held fr m s.
  Definition strict (d p : N) : Prop := below h d p /\ d <> p.

  (** ** What stays as it is *)
  Definition touched (ch : N -> Prop) (ex : ptr -> Prop) (a : N) (x : ptr) : Prop :=
    ex x \/ match x with Wire d _ => ch d | Anon j => (a <= j)%N end.
  Record kept (ch : N -> Prop) (ex : ptr -> Prop) (a r : N) (fr fr' : frame) (m m' : mem) (g g' : registers) : Prop := {
    k_start : start fr' = start fr;
    k_env : forall d, ~ ch d -> env fr' d = env fr d;
    k_pc : forall d, ~ ch d -> pc fr' d = pc fr d;
    k_mem : forall x, ~ touched ch ex a x -> m' x = m x;
    k_regs : forall x, (x < r)%N -> g' x = g x }.
  Definition nothing : ptr -> Prop := fun _ => False.

  Lemma kept_refl : forall ch ex a r fr m g, kept ch ex a r fr fr m m g g.
  Proof. intros. constructor; auto. Qed.

  Lemma kept_trans : forall ch1 ex1 a1 r1 ch2 ex2 a2 r2 (ch : N -> Prop) (ex : ptr -> Prop) a r f1 f2 f3 m1 m2 m3 g1 g2 g3,
    kept ch1 ex1 a1 r1 f1 f2 m1 m2 g1 g2 -> kept ch2 ex2 a2 r2 f2 f3 m2 m3 g2 g3 ->
    (forall d, ch1 d -> ch d) -> (forall d, ch2 d -> ch d) ->
    (forall x, touched ch1 ex1 a1 x -> touched ch ex a x) -> (forall x, touched ch2 ex2 a2 x -> touched ch ex a x) ->
    (r <= r1)%N -> (r <= r2)%N -> kept ch ex a r f1 f3 m1 m3 g1 g3.
  Proof.
    intros ch1 ex1 a1 r1 ch2 ex2 a2 r2 ch ex a r f1 f2 f3 m1 m2 m3 g1 g2 g3 A B C1 C2 T1 T2 R1 R2. constructor.
    - rewrite (k_start _ _ _ _ _ _ _ _ _ _ B). apply (k_start _ _ _ _ _ _ _ _ _ _ A).
    - intros d Nd. rewrite (k_env _ _ _ _ _ _ _ _ _ _ B); [apply (k_env _ _ _ _ _ _ _ _ _ _ A)|]; intros X; apply Nd; auto.
    - intros d Nd. rewrite (k_pc _ _ _ _ _ _ _ _ _ _ B); [apply (k_pc _ _ _ _ _ _ _ _ _ _ A)|]; intros X; apply Nd; auto.
    - intros d Nd. rewrite (k_mem _ _ _ _ _ _ _ _ _ _ B); [apply (k_mem _ _ _ _ _ _ _ _ _ _ A)|]; intros X; apply Nd; auto.
    - intros x Lx. rewrite (k_regs _ _ _ _ _ _ _ _ _ _ B) by lia. apply (k_regs _ _ _ _ _ _ _ _ _ _ A). lia.
  Qed.

  Lemma kept_chain : forall ch ex a r f1 f2 f3 m1 m2 m3 g1 g2 g3,
    kept ch ex a r f1 f2 m1 m2 g1 g2 -> kept ch ex a r f2 f3 m2 m3 g2 g3 -> kept ch ex a r f1 f3 m1 m3 g1 g3.
  Proof. intros. eapply kept_trans; eauto using N.le_refl. Qed.
  Lemma kept_mono : forall (ch1 : N -> Prop) (ex1 : ptr -> Prop) a1 r1 (ch : N -> Prop) (ex : ptr -> Prop) a r f f' m m' g g', kept ch1 ex1 a1 r1 f f' m m' g g' ->
    (forall d, ch1 d -> ch d) -> (forall x, ex1 x -> touched ch ex a x) -> (a <= a1)%N -> (r <= r1)%N -> kept ch ex a r f f' m m' g g'.
  Proof.
    intros ch1 ex1 a1 r1 ch ex a r f f' m m' g g' K C X A R. eapply kept_trans; [exact K|apply (kept_refl ch ex a r)|exact C|auto| |auto|exact R|lia].
    intros x [Y|Y]; [now apply X|]. right. destruct x; [now apply C|]. lia.
  Qed.

  Lemma held_kept : forall (ch : N -> Prop) (ex : ptr -> Prop) a r fr fr' m m' g g' d, kept ch ex a r fr fr' m m' g g' -> ~ ch d -> (forall q, ~ ex (Wire d q)) ->
    held fr m d -> held fr' m' d.
  Proof.
    intros ch ex a r fr fr' m m' g g' d K Nd Nx (row & Er & Lr & Mr). exists row. split; [rewrite (k_env _ _ _ _ _ _ _ _ _ _ K); assumption|]. split; [exact Lr|].
    intros p c Ec. rewrite (k_mem _ _ _ _ _ _ _ _ _ _ K); [now apply Mr|]. intros [X|X]; [exact (Nx p X)|exact (Nd X)].
  Qed.

  Lemma ready_kept : forall (ch : N -> Prop) (ex : ptr -> Prop) a r fr fr' m m' g g' n, kept ch ex a r fr fr' m m' g g' ->
    (forall s, ~ below h s n -> ~ ch s /\ forall q, ~ ex (Wire s q)) -> ready fr m n -> ready fr' m' n.
  Proof.
    intros ch ex a r fr fr' m m' g g' n K H R d i s q B U Ns. destruct (H s Ns) as [A1 A2]. exact (held_kept _ _ _ _ _ _ _ _ _ _ s K A1 A2 (R d i s q B U Ns)).
  Qed.

  Lemma func_kept : forall fr fr', start fr' = start fr -> func_start fr -> func_start fr'.
  Proof. intros fr fr' Es X. unfold func_start. rewrite Es. exact X. Qed.

  Lemma inputs_kept : forall (ch : N -> Prop) (ex : ptr -> Prop) a r fr fr' m m' g g' n cs, kept ch ex a r fr fr' m m' g g' -> func_start fr ->
    (forall i s q, uses h n i s q -> ~ ch s) -> inputs h fr n cs -> inputs h fr' n cs.
  Proof.
    intros ch ex a r fr fr' m m' g g' n cs K Fs H I. apply inputs_plain in I; [|exact Fs]. apply inputs_plain; [exact (func_kept _ _ (k_start _ _ _ _ _ _ _ _ _ _ K) Fs)|].
    destruct I as [L Ar]. split; [exact L|]. intros i c Ec. destruct (Ar i c Ec) as (s & p & row & El & Er & En). exists s, p, row. split; [exact El|]. split; [|exact En].
    rewrite (k_env _ _ _ _ _ _ _ _ _ _ K); [exact Er|]. apply (H i s p). split; [|exact El]. rewrite <- L. apply nth_error_Some. congruence.
  Qed.

  (** ** Wires *)
  Lemma outs_eq : forall n, In n (h_nodes h) -> node_outs h n = map (Wire n) (seq 0 (out_count h n)).
  Proof. intros n I. unfold node_outs. now rewrite (proj2 (all_wires _ _ _ Va n I)). Qed.
  Lemma outs_length : forall n, In n (h_nodes h) -> length (node_outs h n) = out_count h n.
  Proof. intros n I. rewrite outs_eq by exact I. now rewrite map_length, seq_length. Qed.
  Lemma outs_nodup : forall n, NoDup (node_outs h n).
  Proof.
    intros n. unfold node_outs, out_wires. apply FinFun.Injective_map_NoDup; [intros a b X; now injection X|apply seq_NoDup].
  Qed.
  Lemma outs_in : forall n x, In x (node_outs h n) -> exists q, x = Wire n q.
  Proof. intros n x I. apply in_map_iff in I. destruct I as (q & <- & _). eauto. Qed.
  Lemma outs_nth : forall n p, In n (h_nodes h) -> p < out_count h n -> nth_error (node_outs h n) p = Some (Wire n p).
  Proof.
    intros n p I L. rewrite outs_eq by exact I. apply map_nth_error. rewrite nth_error_nth' with (d := 0) by (rewrite seq_length; exact L). now rewrite seq_nth.
  Qed.

  Lemma held_loads : forall fr m n row, In n (h_nodes h) -> env fr n = Some row -> loads m (node_outs h n) = Some row -> held fr m n.
  Proof.
    intros fr m n row I Er L. exists row. apply each_some_nth in L. destruct L as [Ll Ln]. rewrite outs_length in Ll by exact I.
    split; [exact Er|]. split; [exact Ll|]. intros p c Ec. specialize (Ln p). rewrite Ec in Ln. rewrite outs_nth in Ln; [now symmetry|exact I|].
    rewrite <- Ll. apply nth_error_Some. congruence.
  Qed.

  (** Reading the inputs of a node whose sources have been executed. *)
  Lemma read_inputs : forall fr m n ps, In n (h_nodes h) -> func_start fr -> (forall i s q, uses h n i s q -> held fr m s) -> node_ins h n = Some ps ->
    exists vs, loads m ps = Some vs /\ inputs h fr n vs.
  Proof.
    intros fr m n ps I Fs H Np. unfold node_ins in Np. rewrite (proj1 (all_wires _ _ _ Va n I)) in Np. pose proof Np as Nq. apply each_some_nth in Np.
    rewrite seq_length in Np. destruct Np as [Lp Np].
    assert (U : forall k x, nth_error ps k = Some x -> exists s q, x = Wire s q /\ uses h n k s q).
    { intros k x Ek. pose proof (Np k) as Y. assert (Lk : k < in_count h n) by (rewrite <- Lp; apply nth_error_Some; congruence).
      rewrite Ek, (nth_error_nth' _ 0) in Y by (rewrite seq_length; exact Lk). rewrite seq_nth in Y by exact Lk. change (0 + k) with k in Y.
      destruct (single_linked_output h n k) as [[s q]|] eqn:Sl; [|discriminate]. cbn [option_map fst snd] in Y. injection Y as ->. exists s, q. split; [reflexivity|]. split; assumption. }
    assert (Src : forall k s q, uses h n k s q -> exists row c, env fr s = Some row /\ nth_error row q = Some c /\ m (Wire s q) = Some c).
    { intros k s q Us. destruct (H k s q Us) as (row & Er & Lr & Mr). destruct (uses_facts _ _ _ Wf Va _ _ _ _ Us) as (_ & _ & Lq & _).
      destruct (nth_error row q) as [c|] eqn:Ec; [|apply nth_error_None in Ec; lia]. exists row, c. auto. }
    destruct (each_some_all m ps) as (vs & Ev).
    { intros x Ix. apply In_nth_error in Ix. destruct Ix as (k & Ek). destruct (U k x Ek) as (s & q & -> & Us). destruct (Src k s q Us) as (row & c & _ & _ & Y). eauto. }
    exists vs. split; [exact Ev|]. apply each_some_nth in Ev. destruct Ev as [Lv Nv]. apply inputs_plain; [exact Fs|]. split; [congruence|].
    intros k c Ec. specialize (Nv k). rewrite Ec in Nv. destruct (nth_error ps k) as [x|] eqn:Ek; [|discriminate].
    destruct (U k x Ek) as (s & q & -> & Us). destruct (Src k s q Us) as (row & c' & Er & En & Y). exists s, q, row. split; [apply Us|]. split; [exact Er|]. congruence.
  Qed.

  Lemma ins_wires : forall n ps x, In n (h_nodes h) -> node_ins h n = Some ps -> In x ps -> exists k s q, x = Wire s q /\ uses h n k s q.
  Proof.
    intros n ps x I Np Ix. unfold node_ins in Np. rewrite (proj1 (all_wires _ _ _ Va n I)) in Np. apply each_some_nth in Np. rewrite seq_length in Np. destruct Np as [Lp Np].
    apply In_nth_error in Ix. destruct Ix as (k & Ek). pose proof (Np k) as Y. assert (Lk : k < in_count h n) by (rewrite <- Lp; apply nth_error_Some; congruence).
    rewrite Ek, (nth_error_nth' _ 0) in Y by (rewrite seq_length; exact Lk). rewrite seq_nth in Y by exact Lk. change (0 + k) with k in Y.
    destruct (single_linked_output h n k) as [[s q]|] eqn:Sl; [|discriminate]. cbn [option_map fst snd] in Y. injection Y as ->. exists k, s, q. split; [reflexivity|]. split; assumption.
  Qed.

  (** ** Entering regions *)
  Lemma enter_env : forall (fr : frame) p i cs d, In p (h_nodes h) -> below h d p -> d <> i -> env (enter h fr p i cs) d = None /\ pc (enter h fr p i cs) d = None.
  Proof.
    intros fr p i cs d Ip B Nd. cbn. destruct (N.eqb_spec d i) as [->|_]; [contradiction|]. rewrite (proj2 (desc_iff h Wf p d Ip) B). auto.
  Qed.
  Lemma enter_kept : forall (fr : frame) p i cs m g a r, In p (h_nodes h) -> below h i p -> kept (fun d => below h d p) nothing a r fr (enter h fr p i cs) m m g g.
  Proof.
    intros fr p i cs m g a r Ip Bi. constructor; try reflexivity.
    - intros d Nd. cbn. destruct (N.eqb_spec d i) as [->|_]; [contradiction|]. destruct (memN d (descendants h p)) eqn:Em; [|reflexivity]. apply (desc_iff h Wf p d Ip) in Em. contradiction.
    - intros d Nd. cbn. destruct (memN d (descendants h p)) eqn:Em; [|reflexivity]. apply (desc_iff h Wf p d Ip) in Em. contradiction.
  Qed.
  Lemma put_kept : forall (fr : frame) n cs m g a r, kept (fun d => d = n) nothing a r fr (put fr n cs) m m g g.
  Proof. intros fr n cs m g a r. constructor; try reflexivity. intros d Nd. cbn. now apply upd_other. Qed.
  Lemma stores_kept : forall (fr : frame) ps vs m g (ex : ptr -> Prop) (ch : N -> Prop) a r, (forall x, In x ps -> touched ch ex a x) -> kept ch ex a r fr fr m (stores m ps vs) g g.
  Proof. intros fr ps vs m g ex ch a r H. constructor; try reflexivity. intros x Nx. apply stores_other. intros I. apply Nx. now apply H. Qed.
  Lemma regs_kept : forall (fr : frame) m g ex ch a r x v, (r <= x)%N -> kept ch ex a r fr fr m m g (upd g x v).
  Proof. intros fr m g ex ch a r x v L. constructor; try reflexivity. intros y Ly. apply upd_other. lia. Qed.

  Lemma below_refl : forall n, below h n n.
  Proof. intros n. constructor. Qed.
  Lemma kid_below : forall c p, h_parent h c = Some p -> below h c p.
  Proof. intros c p P. apply (parent_below h c p p P). constructor. Qed.
  Lemma parent_neq : forall c p, h_parent h c = Some p -> c <> p.
  Proof.
    intros c p P ->. pose proof (wf_reach h Wf p (proj1 (kid_live h Wf p p P))) as U. remember (h_root h) as r eqn:Er.
    induction U as [n|n q a Pq U IH]; [subst; rewrite (wf_top h Wf) in P; discriminate|]. assert (q = n) by congruence. subst q. exact (IH P Er).
  Qed.

  (** ** Nodes without regions *)
  Definition node_done (Fc : N -> list (instr E)) (n : N) (k : nat) (s s' : st) (fr : frame) (m : mem) (g : registers) (oc : outcome) : Prop :=
    exists k' fr' m' g', k' <= k /\ run Fc k' (pos Fc s') m' g' oc /\ reach fr fr' /\
      kept (fun d => below h d n) nothing (anon s) (regs s) fr fr' m m' g g' /\ held fr' m' n.

  Lemma simple_sim : forall Fc n i len (s s' : st) k fr m g oc, In n (h_nodes h) -> emit_simple i len (node_outs h n) s = Some s' -> inv s -> ext Fc s' ->
    run Fc k (pos Fc s) m g oc ->
    (forall l, run Fc k (i (regs s) :: l) m g oc ->
       exists k1 outs, k1 < k /\ run Fc k1 l m (upd g (regs s) (Some outs)) oc /\ (length outs = out_count h n -> reach fr (put fr n outs))) ->
    node_done Fc n k s s' fr m g oc.
  Proof.
    intros Fc n i len s s' k fr m g oc In_ X I Xe Ex H. unfold emit_simple in X. destruct (compute i len s) as [v s1] eqn:C.
    destruct (compute_grows _ _ _ _ _ I C) as (G1 & Ev & _). pose proof (write_grows _ _ _ _ (c_inv _ _ (proj1 G1)) X) as G2.
    pose proof (grows_ext G2 Xe) as X1. rewrite (pos_compute C X1) in Ex. destruct (H _ Ex) as (k1 & outs & L1 & Ex1 & R).
    destruct (pos_write X Xe) as [Ep _]. rewrite Ep, Ev in Ex1. cbn [r_reg] in Ex1. destruct (exec_store Ex1 ltac:(apply upd_same)) as (k2 & vs & -> & Eg & Lv & Ex2).
    rewrite upd_same in Eg. injection Eg as <-. rewrite outs_length in Lv by exact In_.
    exists k2, (put fr n outs), (stores m (node_outs h n) outs), (upd g (regs s) (Some outs)). split; [lia|]. split; [exact Ex2|]. split; [exact (R Lv)|]. split.
    - eapply kept_trans with (ch1 := fun d => d = n) (ex1 := nothing) (a1 := anon s) (r1 := regs s) (ch2 := fun d => below h d n) (ex2 := nothing) (a2 := anon s) (r2 := regs s);
        [apply put_kept| | | | | | |].
      + eapply kept_trans with (ch1 := fun d => below h d n) (ex1 := nothing) (a1 := anon s) (r1 := regs s) (ch2 := fun d => below h d n) (ex2 := nothing) (a2 := anon s) (r2 := regs s);
          [apply stores_kept| apply regs_kept| | | | | |]; try lia; auto. intros x Ix. apply outs_in in Ix. destruct Ix as (q & ->). right. apply below_refl.
      + intros d ->. apply below_refl.
      + auto.
      + intros x [[]|Q]. right. destruct x; [subst; apply below_refl|exact Q].
      + auto.
      + lia.
      + lia.
    - apply (held_loads _ _ _ outs In_); [cbn; apply upd_same|]. apply stores_loads; [apply outs_nodup|]. now rewrite outs_length.
  Qed.

  (** ** Calls *)
  Definition calls_ok (b : nat) : Prop := forall k f fn ins o, k < b -> emitted ctx h handled f = Some fn -> length ins = f_params fn ->
    run (f_code fn) k (f_code fn 0%N) no_mem (with_params ins) o ->
    exists outs i out fr, o = Returns outs /\ get_io h f = Some (i, out) /\ fits h i ins /\ start fr = f /\ inputs h fr out outs /\ reach (new_frame f i ins) fr.

  Lemma call_sim : forall Fc b i r f vs len n k l m g oc fr, calls_ok b -> k <= b -> waiting h fr n -> calls h fr n f vs ->
    call_of i g = Some (r, f, vs, len) -> run Fc k (i :: l) m g oc ->
    exists k1 outs, k1 < k /\ run Fc k1 l m (upd g r (Some outs)) oc /\ (length outs = out_count h n -> reach fr (put fr n outs)).
  Proof.
    intros Fc b i r f vs len n k l m g oc fr Ok L Wt Cl Co Ex.
    destruct (exec_call Ex Co) as [(fn & outs & k1 & k2 & Df & Lv & Exc & Lo & -> & Ex2)|[(fn & k1 & Df & Lv & -> & Exc)|(outs & k2 & _ & [(nm & sg & pub & Of) De] & Lo & -> & Ex2)]].
    - assert (Lk1 : k1 < b) by lia. destruct (Ok k1 f fn vs _ Lk1 Df Lv Exc) as (outs' & i' & o' & frc & Eo & Gi & Fi & Sf & Io & R). injection Eo as <-.
      exists k2, outs. split; [lia|]. split; [exact Ex2|]. intros Fn r0 st0.
      assert (Of : exists nm sg pub, h_ops h f = OFuncDefn nm sg pub).
      { unfold emitted, emit_func in Df. destruct (h_ops h f); try discriminate. eauto. }
      destruct Of as (nm & sg & pub & Of). eapply all_more; [|left].
      + eapply all_trans; [|apply R]. eapply all_more; [constructor|left]. eapply s_call; eassumption.
      + eapply s_return; [rewrite Sf; exact Gi|exact Io|exact Fn].
    - assert (Lk1 : k1 < b) by lia. destruct (Ok k1 f fn vs _ Lk1 Df Lv Exc) as (outs' & i' & o' & frc & Eo & _). discriminate.
    - exists k2, outs. split; [lia|]. split; [exact Ex2|]. intros Fn r0 st0. eapply all_more; [constructor|right]. eapply s_extern; eassumption.
  Qed.

  Lemma constant_value : forall c x, emit_value c = Some x -> constant (ext_value sem) x = const_value sem c.
  Proof.
    fix IH 1. intros [tag vs|e|f] x X; cbn [emit_value] in X.
    - match type of X with context [option_map _ (?each vs)] => destruct (each vs) as [xs|] eqn:Ev; [|discriminate] end. injection X as <-. cbn [constant const_value]. f_equal.
      revert xs Ev. induction vs as [|v vs IHvs]; intros xs Ev; [injection Ev as <-; reflexivity|].
      destruct (emit_value v) as [y|] eqn:Ey; [|discriminate]. match type of Ev with context [?each vs] => destruct (each vs) as [ys|] eqn:Eys; [|discriminate] end. injection Ev as <-.
      cbn. f_equal; [exact (IH v y Ey)|exact (IHvs ys eq_refl)].
    - injection X as <-. reflexivity.
    - discriminate.
  Qed.

  Definition static_op (o : op) : Prop := match o with OConst _ _ _ | OFuncDecl _ _ _ | OFuncDefn _ _ _ => True | _ => False end.

  (** ** Regions *)
  Definition promise (p o : N) (ps : list ptr) (a : N) (ex : ptr -> Prop) : Prop :=
    node_ins h o = Some ps \/
    (NoDup ps /\ (forall x, In x ps -> match x with Wire d _ => d = p | Anon j => (j < a)%N end) /\ forall x, In x ps -> ex x).

  Definition region_done (Fc : N -> list (instr E)) (p i o : N) (ins : list conc) (ps : list ptr) (ex : ptr -> Prop) (k : nat) (s s' : st)
      (fr : frame) (m : mem) (g : registers) (oc : outcome) : Prop :=
    exists k' fr' m' g' outs, k' <= k /\ run Fc k' (pos Fc s') m' g' oc /\ reach fr fr' /\
      kept (fun d => strict d p) ex (anon s) (regs s) fr fr' m m' g g' /\ env fr' i = Some ins /\
      inputs h fr' o outs /\ loads m' ps = Some outs /\ forall c, h_parent h c = Some p -> 0 < out_count h c -> held fr' m' c.

  Definition region_ok (b : nat) (rec : N -> row -> list ptr -> st -> option st) : Prop :=
    forall Fc p a ps i o ins ex k s s' fr m g oc, rec p a ps s = Some s' -> inv s -> ext Fc s' -> k <= b -> run Fc k (pos Fc s) m g oc ->
      In p (h_nodes h) -> get_io h p = Some (i, o) -> func_start fr -> env fr i = Some ins -> fits h i ins ->
      g (r_reg a) = Some ins -> (r_reg a < regs s)%N ->
      (forall d, strict d p -> d <> i -> env fr d = None /\ pc fr d = None) -> ready fr m p -> promise p o ps (anon s) ex ->
      region_done Fc p i o ins ps ex k s s' fr m g oc.

  (** What holds before the code of a node. *)
  Record before (n : N) (a : row) (ins : list conc) (s : st) (fr : frame) (m : mem) (g : registers) : Prop := {
    b_node : In n (h_nodes h);
    b_func : func_start fr;
    b_active : active h fr n;
    b_fresh : forall d, below h d n -> env fr d = None /\ pc fr d = None;
    b_ready : ready fr m n;
    b_inputs : inputs h fr n ins;
    b_row : g (r_reg a) = Some ins;
    b_reg : (r_reg a < regs s)%N;
    b_inv : inv s }.

  Lemma io_facts : forall p i o, In p (h_nodes h) -> get_io h p = Some (i, o) ->
    h_parent h i = Some p /\ h_parent h o = Some p /\ fat_io h p = Some (i, o) /\ i <> o /\
    exists ins outs, region (h_ops h p) ins outs /\ h_ops h i = OInput ins /\ h_ops h o = OOutput outs.
  Proof.
    intros p i o Ip G. destruct (get_io_region h p i o G) as (ins & outs & R). destruct (region_io _ _ h Wf Va p ins outs Ip R) as (i' & o' & G' & Fa & Oi & Oo & Pi & Po & _).
    rewrite G in G'. injection G' as <- <-. repeat (split; [first [assumption|congruence]|]). exists ins, outs. auto.
  Qed.

  Lemma active_kept : forall (fr fr' : frame) n, (forall r, h_ops h n <> OInput r) -> active h fr n -> (forall d, ~ below h d n -> env fr' d = env fr d) -> active h fr' n.
  Proof.
    intros fr fr' n Ni (p & i & o & row & P & Gi & Er) H. exists p, i, o, row. split; [exact P|]. split; [exact Gi|].
    rewrite (get_parent_eq h Wf) in P. rewrite H; [exact Er|]. intros B.
    destruct (io_facts p i o (proj2 (kid_live h Wf n p P)) Gi) as (Pi & _ & _ & _ & ins & outs & _ & Oi & _).
    destruct (N.eq_dec i n) as [->|Ne]; [exact (Ni _ Oi)|].
    apply (below_parent h i p n Pi) in B; [|exact Ne]. apply (parent_neq n p P). exact (up_antisym h Wf n p (kid_below n p P) B).
  Qed.

  Lemma before_waiting : forall n a ins s fr m g, before n a ins s fr m g -> waiting h fr n.
  Proof. intros n a ins s fr m g B. split; [apply B|]. split; [left; apply B|]. apply (b_fresh _ _ _ _ _ _ _ B). apply below_refl. Qed.

  Lemma strict_below : forall c p d, h_parent h c = Some p -> below h d c -> strict d p.
  Proof.
    intros c p d P B. split; [exact (below_up h c p d P B)|]. intros ->. apply (parent_neq c p P). exact (up_antisym h Wf c p (kid_below c p P) B).
  Qed.

  Lemma from_facts : forall n a, length (from a n) = n /\ NoDup (from a n) /\ forall j, In j (from a n) -> (a <= j /\ j < a + N.of_nat n)%N.
  Proof.
    induction n as [|n IH]; intros a; cbn [from]; [split; [reflexivity|]; split; [constructor|intros j []]|].
    destruct (IH (N.succ a)) as (A1 & A2 & A3). split; [cbn; now rewrite A1|]. split.
    - constructor; [|exact A2]. intros X. apply A3 in X. lia.
    - intros j [<-|X]; [lia|]. apply A3 in X. lia.
  Qed.

  Section Rec.
    Variable b : nat.
    Variable rec : N -> row -> list ptr -> st -> option st.
    Hypothesis rec_grows : forall p a ps s s', inv s -> rec p a ps s = Some s' -> grows s s'.
    Hypothesis rec_ok : region_ok b rec.
    Hypothesis calls_fine : calls_ok b.

    (** Entering a region that has not been run since its container was. *)
    Lemma enter_strict : forall (fr : frame) n i cs m g x r, In n (h_nodes h) -> h_parent h i = Some n -> env fr n = None -> pc fr n = None ->
      kept (fun d => strict d n) nothing x r fr (enter h fr n i cs) m m g g.
    Proof.
      intros fr n i cs m g x r In_ Pi En Pn. pose proof (enter_kept fr n i cs m g x r In_ (kid_below _ _ Pi)) as K. constructor; try reflexivity.
      - intros d Nd. destruct (N.eq_dec d n) as [->|Ne].
        + destruct (enter_env fr n i cs n In_ (below_refl n) (not_eq_sym (parent_neq i n Pi))) as [Y _]. rewrite Y. now symmetry.
        + apply (k_env _ _ _ _ _ _ _ _ _ _ K). intros Bd. apply Nd. now split.
      - intros d Nd. destruct (N.eq_dec d n) as [->|Ne].
        + destruct (enter_env fr n i cs n In_ (below_refl n) (not_eq_sym (parent_neq i n Pi))) as [_ Y]. rewrite Y. now symmetry.
        + apply (k_pc _ _ _ _ _ _ _ _ _ _ K). intros Bd. apply Nd. now split.
    Qed.

    Lemma dfg_sim : forall Fc n sg a ins k s s' fr m g oc, h_ops h n = ODfg sg -> rec n a (node_outs h n) s = Some s' -> before n a ins s fr m g ->
      ext Fc s' -> k <= b -> run Fc k (pos Fc s) m g oc -> node_done Fc n k s s' fr m g oc.
    Proof.
      intros Fc n [ti to] a ins k s s' fr m g oc On X B Xe Lk Ex. pose proof (b_node _ _ _ _ _ _ _ B) as In_.
      assert (Rg : region (h_ops h n) ti to) by (rewrite On; constructor).
      destruct (region_io _ _ h Wf Va n ti to In_ Rg) as (i & o & Gi & _ & Oi & Oo & Pi & Po & _).
      assert (Li : length ins = in_count h n) by (apply (inputs_plain _ _ _ (b_func _ _ _ _ _ _ _ B)); apply B).
      assert (Fi : fits h i ins) by (unfold fits; rewrite Li; unfold in_count, out_count; rewrite On, Oi; reflexivity).
      set (fr1 := enter h fr n i ins).
      assert (S1 : reach fr fr1).
      { apply reach_step. refine (s_dfg_in _ _ _ _ n (ti, to) i o ins _ On Gi _ (b_inputs _ _ _ _ _ _ _ B) Fi); [exact (before_waiting _ _ _ _ _ _ _ B)|].
        apply (b_fresh _ _ _ _ _ _ _ B). apply kid_below. exact Pi. }
      assert (K1 : kept (fun d => strict d n) nothing (anon s) (regs s) fr fr1 m m g g).
      { apply enter_strict; try assumption; apply (b_fresh _ _ _ _ _ _ _ B); apply below_refl. }
      assert (Fs1 : func_start fr1) by exact (b_func _ _ _ _ _ _ _ B).
      destruct (rec_ok Fc n a (node_outs h n) i o ins (fun x => In x (node_outs h n)) k s s' fr1 m g oc X (b_inv _ _ _ _ _ _ _ B) Xe Lk Ex In_ Gi Fs1) as
        (k' & fr2 & m2 & g2 & outs & Lk' & Ex2 & R2 & K2 & Ei & Io & Lo & _).
      - cbn. now rewrite N.eqb_refl.
      - exact Fi.
      - apply B.
      - apply B.
      - intros d [Bd _] Nd. exact (enter_env fr n i ins d In_ Bd Nd).
      - refine (ready_kept _ _ _ _ _ _ _ _ _ _ n K1 _ (b_ready _ _ _ _ _ _ _ B)). intros x Nx. split; [intros [Bx _]; exact (Nx Bx)|intros q []].
      - right. split; [apply outs_nodup|]. split; [|auto]. intros x Ix. apply outs_in in Ix. destruct Ix as (q & ->). reflexivity.
      - assert (Lo' : length outs = out_count h n) by (apply each_some_nth in Lo; destruct Lo as [Ll _]; rewrite Ll; now apply outs_length).
        assert (En2 : env fr2 n = None).
        { rewrite (k_env _ _ _ _ _ _ _ _ _ _ K2) by (intros [_ Y]; now apply Y). apply (enter_env fr n i ins n In_ (below_refl n) (not_eq_sym (parent_neq i n Pi))). }
        exists k', (put fr2 n outs), m2, g2. split; [exact Lk'|]. split; [exact Ex2|]. split; [|split].
        + eapply reach_trans; [exact S1|]. eapply reach_trans; [exact R2|]. apply reach_step.
          refine (s_dfg_out _ _ _ _ n (ti, to) i o outs _ On Gi _ Io Lo'); [|congruence].
          split; [exact In_|]. split; [left|exact En2]. apply (active_kept fr fr2 n); [congruence|apply B|]. intros d Nd.
          rewrite (k_env _ _ _ _ _ _ _ _ _ _ K2); [apply (k_env _ _ _ _ _ _ _ _ _ _ K1)|]; intros [Bd _]; exact (Nd Bd).
        + apply kept_chain with fr1 m g; [|apply kept_chain with fr2 m2 g2].
          * eapply kept_mono; [exact K1|intros d [Bd _]; exact Bd|intros x []|apply N.le_refl|apply N.le_refl].
          * eapply kept_mono; [exact K2|intros d [Bd _]; exact Bd| |apply N.le_refl|apply N.le_refl].
            intros x Ix. apply outs_in in Ix. destruct Ix as (q & ->). right. apply below_refl.
          * eapply kept_mono; [apply (put_kept _ n outs m2 g2 (anon s) (regs s))|intros d ->; apply below_refl|intros x []|apply N.le_refl|apply N.le_refl].
        + apply (held_loads _ _ _ outs In_); [cbn; apply upd_same|exact Lo].
    Qed.

    Lemma loop_sim : forall Fc n ji jo r a ins k s s' fr m g oc, h_ops h n = OTailLoop ji jo r -> emit_tail_loop h rec ji jo n a (node_outs h n) s = Some s' ->
      before n a ins s fr m g -> ext Fc s' -> k <= b -> run Fc k (pos Fc s) m g oc -> node_done Fc n k s s' fr m g oc.
    Proof.
      intros Fc n ji jo r a ins k s s' fr m g oc On X B Xe Lk Ex. pose proof (b_node _ _ _ _ _ _ _ B) as In_. pose proof (b_inv _ _ _ _ _ _ _ B) as I.
      assert (Rg : region (h_ops h n) (ji ++ r) (new_sum [ji; jo] :: r)) by (rewrite On; constructor).
      destruct (region_io _ _ h Wf Va n _ _ In_ Rg) as (i & o & Gi & Fa & Oi & Oo & Pi & Po & _).
      unfold emit_tail_loop in X. rewrite Fa in X.
      destruct (new_block s) as [out_bb z0] eqn:B0. destruct (new_block_grows _ _ _ I B0) as (G0 & Eb0 & Cb0 & Lb0 & Cu0).
      destruct (new_block z0) as [body_bb z1] eqn:B1. destruct (new_block_grows _ _ _ (c_inv _ _ (proj1 G0)) B1) as (G1 & Eb1 & Cb1 & Lb1 & Cu1).
      destruct (node_ins h o) as [body_o|] eqn:No; [|discriminate].
      destruct (write (node_outs h i) a z1) as [z2|] eqn:Ww; [|discriminate].
      pose proof (write_grows _ _ _ _ (c_inv _ _ (proj1 G1)) Ww) as G2.
      destruct (build_positioned body_bb _ (append (IBr body_bb) z2)) as [[u z3]|] eqn:P; [|discriminate]. injection X as <-.
      apply positioned_inv in P. destruct P as (t3 & P & ->).
      set (z2' := append (IBr body_bb) z2) in *.
      assert (G3 : grows z2 z2') by (apply append_grows; apply (c_inv _ _ (proj1 G2))).
      pose proof (grows_trans _ _ _ G2 G3) as G23.
      assert (Lb : (body_bb < blocks z2')%N) by (pose proof (c_blocks _ _ (proj1 G23)); lia).
      destruct (read (node_outs h i) (position body_bb z2')) as [v t0] eqn:Rd. rewrite read_compute in Rd.
      pose proof (position_inv body_bb z2' (c_inv _ _ (proj1 G3)) Lb) as Ip.
      destruct (compute_grows _ _ _ _ _ Ip Rd) as (H1 & Ev & Lr1 & _).
      destruct (rec n v body_o t0) as [t1|] eqn:Rc; [|discriminate].
      pose proof (rec_grows _ _ _ _ _ (c_inv _ _ (proj1 H1)) Rc) as H2.
      destruct (read body_o t1) as [res t2] eqn:Rd2. rewrite read_compute in Rd2.
      destruct (compute_grows _ _ _ _ _ (c_inv _ _ (proj1 H2)) Rd2) as (H3 & Er & Lr2 & _).
      match type of P with context [build_destructure ?hd _ _ _] => set (hand := hd) in * end.
      destruct (build_destructure hand res _ t2) as [t3'|] eqn:D; [|discriminate]. injection P as _ <-.
      assert (Hh : forall k vs s s', inv s -> hand k vs s = Some s' -> core s s').
      { intros k0 vs x x' Ia Q. unfold hand in Q. destruct (Nat.eqb k0 0); apply (write_br_core _ _ _ _ _ Ia Q). }
      destruct (build_destructure_grows _ _ _ _ _ Hh (c_inv _ _ (proj1 H3)) D) as [H4 _].
      assert (X3 : ext Fc t3') by exact Xe.
      pose proof (grows_ext H4 X3) as X2. pose proof (grows_ext H3 X2) as X1. pose proof (grows_ext H2 X1) as X0. pose proof (grows_ext H1 X0) as Xz.
      assert (Cbody : code z2' body_bb = []).
      { rewrite (c_old _ _ (proj1 G23)); [exact Cb1|exact Lb1|]. rewrite Cu1, Cu0. pose proof (proj2 I). pose proof (c_blocks _ _ (proj1 G0)). lia. }
      assert (Cout : code t3' out_bb = []).
      { rewrite (c_old _ _ (proj1 (grows_trans _ _ _ H1 (grows_trans _ _ _ H2 (grows_trans _ _ _ H3 H4))))).
        - cbn [position code]. rewrite (c_old _ _ (proj1 G23)).
          + rewrite (c_old _ _ (proj1 G1)); [exact Cb0|exact Lb0|]. rewrite Cu0. pose proof (proj2 I). lia.
          + pose proof (c_blocks _ _ (proj1 G1)). lia.
          + rewrite Cu1, Cu0. pose proof (proj2 I). lia.
        - cbn [position blocks]. pose proof (c_blocks _ _ (proj1 G1)). pose proof (c_blocks _ _ (proj1 G23)). lia.
        - cbn [position cur]. pose proof (c_blocks _ _ (proj1 G0)). lia. }
      assert (Am : (anon s <= anon z2')%N /\ (regs s <= regs z2')%N).
      { split.
        - pose proof (c_anon _ _ (proj1 G0)). pose proof (c_anon _ _ (proj1 G1)). pose proof (c_anon _ _ (proj1 G23)). lia.
        - pose proof (c_regs _ _ (proj1 G0)). pose proof (c_regs _ _ (proj1 G1)). pose proof (c_regs _ _ (proj1 G23)). lia. }
      destruct Am as [Am Rm].
      pose proof (c_anon _ _ (proj1 H1)) as Am1. pose proof (c_regs _ _ (proj1 H1)) as Rm1. cbn [position anon regs] in Am1, Rm1, Lr1, Ev.
      pose proof (c_anon _ _ (proj1 H2)) as Am2. pose proof (c_regs _ _ (proj1 H2)) as Rm2.
      pose proof (c_anon _ _ (proj1 H3)) as Am3. pose proof (c_regs _ _ (proj1 H3)) as Rm3.
      assert (Ni : In i (h_nodes h)) by apply (proj1 (kid_live h Wf i n Pi)).
      assert (Loop : forall k m g fr cs, k <= b -> run Fc k (Fc body_bb) m g oc -> func_start fr -> active h fr n -> env fr n = None -> pc fr n = None ->
        env fr i = Some cs -> fits h i cs -> loads m (node_outs h i) = Some cs ->
        (forall d, strict d n -> d <> i -> env fr d = None /\ pc fr d = None) -> ready fr m n ->
        exists k' fr' m' g', k' < k /\ run Fc k' (Fc out_bb) m' g' oc /\ reach fr fr' /\
          kept (fun d => below h d n) nothing (anon s) (regs s) fr fr' m m' g g' /\ held fr' m' n).
      { clear k fr m g Ex Lk B. intros k. induction k as [k IH] using lt_wf_ind. intros m g fr cs Lk Ex Fs Ac En Pn Ei Fi Lo Fresh Rdy.
        rewrite <- (pos_empty Fc body_bb z2' Cbody) in Ex. rewrite (pos_compute Rd X0) in Ex.
        destruct (exec_load Ex Lo) as (k1 & -> & Ex1). cbn [position regs] in Ex1. set (g1 := upd g (regs z2') (Some cs)) in *.
        destruct (rec_ok Fc n v body_o i o cs nothing k1 t0 t1 fr m g1 oc Rc (c_inv _ _ (proj1 H1)) X1) as
          (k2 & fr2 & m2 & g2 & outs & Lk2 & Ex2 & R2 & K2 & Ei2 & Io2 & Lo2 & _); try assumption.
        - lia.
        - rewrite Ev. cbn [r_reg]. unfold g1. apply upd_same.
        - rewrite Ev. cbn [r_reg]. exact Lr1.
        - left. exact No.
        - rewrite (pos_compute Rd2 X2) in Ex2. destruct (exec_load Ex2 Lo2) as (k3 & -> & Ex3). set (g3 := upd g2 (regs t1) (Some outs)) in *.
          destruct (destructure_run Hh (c_inv _ _ (proj1 H3)) D X3 Ex3 ltac:(eexists; rewrite Er; unfold g3; apply upd_same)) as (tg & cs' & rest & len & sA & sB & rr & k4 & Eg & El & Lc & Hd & IA & CA & XB & L1 & L2 & L3 & L4 & Ex4).
          rewrite Er in Eg. cbn [r_reg] in Eg. unfold g3 in Eg. rewrite upd_same in Eg. injection Eg as Eo. subst outs.
          assert (Wt : waiting h fr2 n).
          { split; [exact In_|]. split; [left|rewrite (k_env _ _ _ _ _ _ _ _ _ _ K2); [exact En|intros [_ Y]; now apply Y]].
            apply (active_kept fr fr2 n); [congruence|exact Ac|]. intros d Nd. apply (k_env _ _ _ _ _ _ _ _ _ _ K2). intros [Bd _]. exact (Nd Bd). }
          assert (Ei2' : env fr2 i <> None) by congruence.
          assert (K2' : kept (fun d => strict d n) nothing (anon s) (regs s) fr fr2 m m2 g (upd g3 rr (Some (cs' ++ rest)))).
          { apply kept_chain with fr m g1; [unfold g1; apply regs_kept; lia|]. apply kept_chain with fr2 m2 g2; [eapply kept_mono; [exact K2|auto|intros x []|lia|lia]|].
            apply kept_chain with fr2 m2 g3; [unfold g3; apply regs_kept; lia|apply regs_kept; lia]. }
          assert (Fs2 : func_start fr2) by exact (func_kept _ _ (k_start _ _ _ _ _ _ _ _ _ _ K2) Fs).
          unfold hand in Hd. destruct tg as [|tg]; cbn [Nat.eqb] in Hd; cbn [nth_error] in El.
          + injection El as <-. destruct (write_br_run Hd IA XB Ex4 ltac:(eexists; apply upd_same)) as (k5 & cs5 & L5 & Eg5 & Lc5 & _ & Ex5). cbn [r_reg] in Eg5. rewrite upd_same in Eg5. injection Eg5 as <-.
            assert (Fi5 : fits h i (cs' ++ rest)) by (unfold fits; rewrite Lc5; now apply outs_length).
            set (fr5 := enter h fr2 n i (cs' ++ rest)). assert (S5 : reach fr2 fr5).
            { apply reach_step. exact (s_loop_again _ _ _ _ n ji jo r i o cs' rest Wt On Gi Ei2' Io2 Lc Fi5). }
            assert (K5 : kept (fun d => strict d n) nothing (anon s) (regs s) fr fr5 m (stores m2 (node_outs h i) (cs' ++ rest)) g (upd g3 rr (Some (cs' ++ rest)))).
            { apply kept_chain with fr2 m2 (upd g3 rr (Some (cs' ++ rest))); [exact K2'|].
              apply kept_chain with fr5 m2 (upd g3 rr (Some (cs' ++ rest))).
              - apply enter_strict; [exact In_|exact Pi|apply Wt|]. rewrite (k_pc _ _ _ _ _ _ _ _ _ _ K2); [exact Pn|intros [_ Y]; now apply Y].
              - apply stores_kept. intros x Ix. apply outs_in in Ix. destruct Ix as (q & ->). right. apply (strict_below i n i Pi). apply below_refl. }
            destruct (IH k5) with (m := stores m2 (node_outs h i) (cs' ++ rest)) (g := upd g3 rr (Some (cs' ++ rest))) (fr := fr5) (cs := cs' ++ rest)
              as (k6 & fr6 & m6 & g6 & L6 & Ex6 & R6 & K6 & H6).
            * lia.
            * lia.
            * exact Ex5.
            * exact Fs2.
            * apply (active_kept fr fr5 n); [congruence|exact Ac|]. intros d Nd. apply (k_env _ _ _ _ _ _ _ _ _ _ K5). intros [Bd _]. exact (Nd Bd).
            * apply (enter_env fr2 n i (cs' ++ rest) n In_ (below_refl n) (not_eq_sym (parent_neq i n Pi))).
            * apply (enter_env fr2 n i (cs' ++ rest) n In_ (below_refl n) (not_eq_sym (parent_neq i n Pi))).
            * cbn. now rewrite N.eqb_refl.
            * exact Fi5.
            * apply stores_loads; [apply outs_nodup|exact Lc5].
            * intros d [Bd _] Nd. exact (enter_env fr2 n i (cs' ++ rest) d In_ Bd Nd).
            * refine (ready_kept _ _ _ _ _ _ _ _ _ _ n K5 _ Rdy). intros x Nx. split; [intros [Bx _]; exact (Nx Bx)|intros q []].
            * exists k6, fr6, m6, g6. split; [lia|]. split; [exact Ex6|]. split; [exact (reach_trans _ _ _ R2 (reach_trans _ _ _ S5 R6))|]. split; [|exact H6].
              eapply kept_chain; [|exact K6]. eapply kept_mono; [exact K5|intros d [Bd _]; exact Bd|intros x []|apply N.le_refl|apply N.le_refl].
          + destruct tg as [|tg]; [|destruct tg; discriminate]. cbn [nth_error] in El. injection El as <-.
            destruct (write_br_run Hd IA XB Ex4 ltac:(eexists; apply upd_same)) as (k5 & cs5 & L5 & Eg5 & Lc5 & _ & Ex5). cbn [r_reg] in Eg5. rewrite upd_same in Eg5. injection Eg5 as <-.
            assert (Fn5 : fits h n (cs' ++ rest)) by (unfold fits; rewrite Lc5; now apply outs_length).
            exists k5, (put fr2 n (cs' ++ rest)), (stores m2 (node_outs h n) (cs' ++ rest)), (upd g3 rr (Some (cs' ++ rest))). split; [lia|]. split; [exact Ex5|]. split; [|split].
            * eapply reach_trans; [exact R2|]. apply reach_step. exact (s_loop_out _ _ _ _ n ji jo r i o cs' rest Wt On Gi Ei2' Io2 Lc Fn5).
            * eapply kept_chain; [eapply kept_mono; [exact K2'|intros d [Bd _]; exact Bd|intros x []|apply N.le_refl|apply N.le_refl]|].
              eapply kept_chain; [eapply kept_mono; [apply (put_kept _ n (cs' ++ rest) m2 _ (anon s) (regs s))|intros d ->; apply below_refl|intros x []|apply N.le_refl|apply N.le_refl]|].
              apply stores_kept. intros x Ix. apply outs_in in Ix. destruct Ix as (q & ->). right. apply below_refl.
            * apply (held_loads _ _ _ (cs' ++ rest) In_); [cbn; apply upd_same|]. apply stores_loads; [apply outs_nodup|exact Lc5]. }
      assert (Xz2 : ext Fc z2) by exact (grows_ext G3 Xz).
      rewrite <- (pos_same Fc s z1) in Ex; [|congruence|injection B0 as _ <-; injection B1 as _ <-; reflexivity].
      destruct (pos_write Ww Xz2) as [Ep Lw]. rewrite Ep in Ex. destruct (exec_store Ex (b_row _ _ _ _ _ _ _ B)) as (k1 & vs & -> & Eg & Lv & Ex1).
      rewrite (b_row _ _ _ _ _ _ _ B) in Eg. injection Eg as <-. rewrite (pos_append Fc _ _ Xz) in Ex1. destruct (exec_br Ex1) as (k2 & -> & Ex2).
      assert (Fi : fits h i ins) by (unfold fits; rewrite Lv; now apply outs_length).
      assert (Fn : env fr n = None /\ pc fr n = None) by (apply (b_fresh _ _ _ _ _ _ _ B); apply below_refl).
      set (fr1 := enter h fr n i ins). assert (S1 : reach fr fr1).
      { apply reach_step. refine (s_loop_in _ _ _ _ n ji jo r i o ins _ On Gi _ (b_inputs _ _ _ _ _ _ _ B) Fi); [exact (before_waiting _ _ _ _ _ _ _ B)|].
        apply (b_fresh _ _ _ _ _ _ _ B). apply kid_below. exact Pi. }
      assert (K1 : kept (fun d => strict d n) nothing (anon s) (regs s) fr fr1 m (stores m (node_outs h i) ins) g g).
      { eapply kept_chain; [apply enter_strict; [exact In_|exact Pi|apply Fn|apply Fn]|]. apply stores_kept. intros x Ix. apply outs_in in Ix. destruct Ix as (q & ->). right. apply (strict_below i n i Pi). apply below_refl. }
      destruct (Loop k2 (stores m (node_outs h i) ins) g fr1 ins) as (k6 & fr6 & m6 & g6 & L6 & Ex6 & R6 & K6 & H6).
      - lia.
      - exact Ex2.
      - exact (b_func _ _ _ _ _ _ _ B).
      - apply (active_kept fr fr1 n); [congruence|apply B|]. intros d Nd. apply (k_env _ _ _ _ _ _ _ _ _ _ K1). intros [Bd _]. exact (Nd Bd).
      - apply (enter_env fr n i ins n In_ (below_refl n) (not_eq_sym (parent_neq i n Pi))).
      - apply (enter_env fr n i ins n In_ (below_refl n) (not_eq_sym (parent_neq i n Pi))).
      - cbn. now rewrite N.eqb_refl.
      - exact Fi.
      - apply stores_loads; [apply outs_nodup|exact Lv].
      - intros d [Bd _] Nd. exact (enter_env fr n i ins d In_ Bd Nd).
      - refine (ready_kept _ _ _ _ _ _ _ _ _ _ n K1 _ (b_ready _ _ _ _ _ _ _ B)). intros x Nx. split; [intros [Bx _]; exact (Nx Bx)|intros q []].
      - exists k6, fr6, m6, g6. split; [lia|]. split; [rewrite (pos_empty Fc out_bb (position (cur z2') t3') Cout); exact Ex6|]. split; [exact (reach_trans _ _ _ S1 R6)|]. split; [|exact H6].
        eapply kept_chain; [|exact K6]. eapply kept_mono; [exact K1|intros d [Bd _]; exact Bd|intros x []|apply N.le_refl|apply N.le_refl].
    Qed.

    (** ** Conditionals *)
    Lemma cases_code : forall exit_bb exit_rmb kids s l s', inv s -> emit_cases h rec exit_bb exit_rmb kids s = Some (l, s') ->
      forall j c, nth_error kids j = Some c -> exists i o sg rmb bb z v t0 t1,
        h_ops h c = OCase sg /\ fat_io h c = Some (i, o) /\ nth_error l j = Some (rmb, bb) /\ length rmb = out_count h i /\ NoDup rmb /\
        (forall x, In x rmb -> exists q, x = Anon q /\ (anon s <= q)%N) /\ code z bb = [] /\ inv (position bb z) /\ (anon s <= anon z)%N /\ (regs s <= regs z)%N /\
        read rmb (position bb z) = (v, t0) /\ rec c v exit_rmb t0 = Some t1 /\ forall Fc, ext Fc s' -> ext Fc (append (IBr exit_bb) t1).
    Proof.
      intros exit_bb exit_rmb. induction kids as [|c kids IH]; intros s l s' I X j c' Ej; [destruct j; discriminate|]. cbn [emit_cases] in X.
      destruct (h_ops h c) eqn:Oc; try discriminate. destruct (fat_io h c) as [[i o]|] eqn:Fa; [|discriminate].
      destruct (new_row_mail_box (out_count h i) s) as [rmb z0] eqn:R0. destruct (new_row_grows _ _ _ _ I R0) as (G0 & Cu0 & Erm & _ & _).
      destruct (new_block z0) as [bb z1] eqn:B1. destruct (new_block_grows _ _ _ (c_inv _ _ (proj1 G0)) B1) as (G1 & Eb & Cb & Lb & Cu1).
      destruct (build_positioned bb _ z1) as [[u z2]|] eqn:P; [|discriminate].
      destruct (emit_cases h rec exit_bb exit_rmb kids z2) as [[l' z3]|] eqn:D; [|discriminate]. injection X as <- <-.
      apply positioned_inv in P. destruct P as (t & P & ->).
      destruct (read rmb (position bb z1)) as [v t0] eqn:Rd. pose proof Rd as Rd'. rewrite read_compute in Rd.
      pose proof (position_inv bb z1 (c_inv _ _ (proj1 G1)) Lb) as Ip.
      destruct (compute_grows _ _ _ _ _ Ip Rd) as (G2 & _ & _ & Cu2 & _).
      destruct (rec c v exit_rmb t0) as [t1|] eqn:Rc; [|discriminate]. injection P as _ <-.
      pose proof (rec_grows _ _ _ _ _ (c_inv _ _ (proj1 G2)) Rc) as G3.
      assert (G4 : grows (position bb z1) (append (IBr exit_bb) t1)).
      { eapply grows_trans; [exact G2|]. eapply grows_trans; [exact G3|]. apply append_grows. apply (c_inv _ _ (proj1 G3)). }
      pose proof (grows_trans _ _ _ G0 G1) as G01.
      assert (L0 : (blocks s <= bb)%N) by (pose proof (c_blocks _ _ (proj1 G0)); lia).
      assert (Lc : (cur s < blocks (append (IBr exit_bb) t1))%N).
      { pose proof (c_blocks _ _ (proj1 G4)) as X1. pose proof (c_blocks _ _ (proj1 G01)). destruct I. cbn in *. lia. }
      pose proof (grows_at _ _ _ bb (cur s) G01 L0 Lb (proj1 G4) (or_introl eq_refl) Lc) as G5.
      replace (cur z1) with (cur s) in * by congruence.
      destruct (cases_grows h rec rec_grows _ _ _ _ _ _ (c_inv _ _ (proj1 G5)) D) as (G6 & _).
      destruct j as [|j]; cbn [nth_error] in Ej.
      - injection Ej as <-. do 3 eexists. exists rmb, bb, z1, v, t0, t1. split; [exact Oc|]. split; [exact Fa|]. split; [reflexivity|].
        pose proof (from_facts (out_count h i) (anon s)) as (Fl & Fn & Fi).
        split; [rewrite Erm, map_length; exact Fl|]. split; [rewrite Erm; apply FinFun.Injective_map_NoDup; [intros x y Q; now injection Q|exact Fn]|].
        split; [intros x Ix; rewrite Erm in Ix; apply in_map_iff in Ix; destruct Ix as (q & <- & Iq); exists q; split; [reflexivity|apply (Fi q Iq)]|].
        split; [exact Cb|]. split; [exact Ip|]. split; [apply (c_anon _ _ (proj1 G01))|]. split; [apply (c_regs _ _ (proj1 G01))|]. split; [exact Rd'|]. split; [exact Rc|].
        intros Fc Xe. exact (grows_ext G6 Xe).
      - destruct (IH _ _ _ (c_inv _ _ (proj1 G5)) D j c' Ej) as (i' & o' & sg' & rmb' & bb' & z' & v' & t0' & t1' & A1 & A2 & A3 & A4 & A5 & A6 & A7 & A8 & A9 & A10 & A11 & A12 & A13).
        exists i', o', sg', rmb', bb', z', v', t0', t1'. repeat (split; [assumption|]).
        pose proof (c_anon _ _ (proj1 G5)). pose proof (c_regs _ _ (proj1 G5)).
        split; [intros x Ix; destruct (A6 x Ix) as (q & -> & Lq); exists q; split; [reflexivity|lia]|]. repeat (split; [first [assumption|lia]|]). exact A13.
    Qed.

    Lemma conditional_sim : forall Fc n rows oi ou a ins k s s' fr m g oc, h_ops h n = OConditional rows oi ou -> emit_conditional h rec rows n a (node_outs h n) s = Some s' ->
      before n a ins s fr m g -> ext Fc s' -> k <= b -> run Fc k (pos Fc s) m g oc -> node_done Fc n k s s' fr m g oc.
    Proof.
      intros Fc n rows oi ou a ins k s s' fr m g oc On X B Xe Lk Ex. pose proof (b_node _ _ _ _ _ _ _ B) as In_. pose proof (b_inv _ _ _ _ _ _ _ B) as I.
      unfold emit_conditional in X.
      destruct (new_row_mail_box (out_count h n) s) as [erm z0] eqn:R0. destruct (new_row_grows _ _ _ _ I R0) as (G0 & Cu0 & Erm & An0 & Rg0).
      destruct (new_block z0) as [ebb z1] eqn:B1. destruct (new_block_grows _ _ _ (c_inv _ _ (proj1 G0)) B1) as (G1 & Eb & Cb & Lb & Cu1).
      destruct (build_positioned ebb _ z1) as [[u z2]|] eqn:P; [|discriminate].
      apply positioned_inv in P. destruct P as (t & P & ->).
      destruct (read erm (position ebb z1)) as [v t0] eqn:Rd. rewrite read_compute in Rd.
      pose proof (position_inv ebb z1 (c_inv _ _ (proj1 G1)) Lb) as Ip.
      destruct (compute_grows _ _ _ _ _ Ip Rd) as (G2 & Ev & _ & Cu2 & _).
      destruct (write (node_outs h n) v t0) as [t1|] eqn:Ww; [|discriminate]. injection P as _ <-.
      pose proof (write_grows _ _ _ _ (c_inv _ _ (proj1 G2)) Ww) as G3.
      assert (Cut1 : cur t1 = ebb) by (apply write_inv in Ww; destruct Ww as [_ ->]; exact Cu2).
      pose proof (grows_trans _ _ _ G0 G1) as G01. pose proof (grows_trans _ _ _ G2 G3) as G23.
      assert (L0 : (blocks s <= ebb)%N) by (pose proof (c_blocks _ _ (proj1 G0)); lia).
      assert (Lc : (cur s < blocks t1)%N).
      { pose proof (c_blocks _ _ (proj1 G23)) as X1. pose proof (c_blocks _ _ (proj1 G01)). destruct I. cbn in *. lia. }
      pose proof (grows_at _ _ _ ebb (cur s) G01 L0 Lb (proj1 G23) (or_introl eq_refl) Lc) as G5.
      replace (cur z1) with (cur s) in * by congruence.
      destruct (emit_cases h rec ebb erm (h_kids h n) (position (cur s) t1)) as [[cases z3]|] eqn:Ec; [|discriminate].
      destruct (cases_grows h rec rec_grows _ _ _ _ _ _ (c_inv _ _ (proj1 G5)) Ec) as (G6 & Cu6 & Old6).
      match type of X with context [build_destructure ?hd _ _ _] => set (hand := hd) in * end.
      destruct (build_destructure hand a (map (@length ty) rows) z3) as [z4|] eqn:D; [|discriminate]. injection X as <-.
      assert (Hh : forall k vs s s', inv s -> hand k vs s = Some s' -> core s s').
      { intros k0 vs x x' Ia Q. unfold hand in Q. destruct (nth_error cases k0) as [[rm b']|]; [|discriminate]. apply (write_br_core _ _ _ _ _ Ia Q). }
      destruct (build_destructure_grows _ _ _ _ _ Hh (c_inv _ _ (proj1 G6)) D) as [G7 Cu7].
      assert (X4 : ext Fc z4) by exact Xe. pose proof (grows_ext G7 X4) as X3. pose proof (grows_ext G6 X3) as Xt1'. assert (Xt1 : ext Fc t1) by exact Xt1'. pose proof (grows_ext G3 Xt1) as Xt0.
      assert (Lt1 : (ebb < blocks t1)%N) by (pose proof (c_blocks _ _ (proj1 G23)) as Y; cbn in Y; lia).
      assert (Pend : pos Fc (position ebb z4) = pos Fc t1).
      { apply pos_same; [cbn; now symmetry|]. rewrite Cut1. cbn [position code]. rewrite (c_old _ _ (proj1 G7)).
        - apply (Old6 ebb). exact Lt1.
        - pose proof (c_blocks _ _ (proj1 G6)) as Y. cbn in Y. lia.
        - rewrite Cu6. cbn. pose proof (proj2 I). lia. }
      assert (P3 : pos Fc z3 = pos Fc s).
      { apply pos_same; [exact Cu6|]. rewrite (Old6 (cur s) Lc). cbn [position code]. rewrite (c_old _ _ (proj1 G23)).
        - cbn [position code]. injection R0 as _ <-. injection B1 as _ <-. reflexivity.
        - cbn [position blocks]. pose proof (c_blocks _ _ (proj1 G01)). pose proof (proj2 I). lia.
        - cbn [position cur]. pose proof (proj2 I). lia. }
      rewrite <- P3 in Ex.
      destruct (destructure_run Hh (c_inv _ _ (proj1 G6)) D X4 Ex (ex_intro _ _ (b_row _ _ _ _ _ _ _ B))) as (tg & cs & rest & len & sA & sB & rr & k1 & Eg & El & Lcs & Hd & IA & CA & XB & L1 & L2 & L3 & L4 & Ex1).
      rewrite (b_row _ _ _ _ _ _ _ B) in Eg. injection Eg as ->.
      unfold hand in Hd. destruct (nth_error cases tg) as [[rmb bb]|] eqn:Et; [|discriminate].
      destruct (write_br_run Hd IA XB Ex1 ltac:(eexists; apply upd_same)) as (k2 & cs2 & Lk2 & Eg2 & Lc2 & _ & Ex2). cbn [r_reg] in Eg2. rewrite upd_same in Eg2. injection Eg2 as <-.
      destruct (nth_map_inv _ _ _ _ El) as (rw & Er & <-).
      destruct (v_conditional _ _ _ Va n In_ rows oi ou On) as [_ Fk].
      assert (Ekc : exists c, nth_error (h_kids h n) tg = Some c).
      { destruct (nth_error (h_kids h n) tg) as [c|] eqn:Ek; [eauto|]. apply nth_error_None in Ek. apply Forall2_len in Fk. assert (Lt : tg < length rows) by (apply nth_error_Some; intros Y; discriminate (eq_trans (eq_sym Er) Y)).
        exfalso. rewrite <- Fk in Ek. exact (Nat.lt_irrefl _ (Nat.lt_le_trans _ _ _ Lt Ek)). }
      destruct Ekc as (c & Ek).
      destruct (cases_code _ _ _ _ _ _ (c_inv _ _ (proj1 G5)) Ec tg c Ek) as (i & o & sg & rmb' & bb' & z & w & u0 & u1 & A1 & A2 & A3 & A4 & A5 & A6 & A7 & A8 & A9 & A10 & A11 & A12 & A13).
      rewrite Et in A3. injection A3 as <- <-.
      assert (Pc : h_parent h c = Some n) by (apply (wf_kids h Wf); eapply nth_error_In; exact Ek).
      pose proof (fat_get_io h c i o A2) as Gi. pose proof (proj1 (kid_live h Wf c n Pc)) as Ic.
      destruct (io_facts c i o Ic Gi) as (Pi & Po & _).
      assert (Fi : fits h i (cs ++ rest)) by (unfold fits; congruence).
      set (fr1 := enter h fr c i (cs ++ rest)). set (m1 := stores m rmb (cs ++ rest)) in *. set (g1 := upd g rr (Some (cs ++ rest))) in *.
      assert (Bic : below h i n) by (apply (below_up h c n i Pc); apply kid_below; exact Pi).
      assert (S1 : reach fr fr1).
      { apply reach_step. refine (s_cond_in _ _ _ _ n rows oi ou tg c i o cs rest rw (before_waiting _ _ _ _ _ _ _ B) On (b_inputs _ _ _ _ _ _ _ B) Ek _ Gi _ Er Lcs Fi);
          [rewrite A1; reflexivity|]. exact (proj1 (b_fresh _ _ _ _ _ _ _ B i Bic)). }
      pose proof (c_anon _ _ (proj1 G5)) as Am5. pose proof (c_regs _ _ (proj1 G5)) as Rm5. cbn [position anon regs] in *.
      assert (K1 : kept (fun d => below h d c) nothing (anon s) (regs s) fr fr1 m m1 g g1).
      { apply kept_chain with fr1 m g; [apply enter_kept; [exact Ic|apply kid_below; exact Pi]|]. apply kept_chain with fr1 m1 g.
        - apply stores_kept. intros x Ix. destruct (A6 x Ix) as (q & -> & Lq). right. lia.
        - apply regs_kept. pose proof (c_regs _ _ (proj1 G6)) as Y. cbn in Y. lia. }
      assert (Bcn : forall d, below h d c -> below h d n) by (intros d Bd; exact (below_up h c n d Pc Bd)).
      assert (Fs1 : func_start fr1) by exact (b_func _ _ _ _ _ _ _ B).
      pose proof A11 as Rdc. rewrite read_compute in Rdc. destruct (compute_grows _ _ _ _ _ A8 Rdc) as (U0 & Ew & Lrw & Cuw & Anw & _). cbn [position anon regs] in *.
      pose proof (A13 Fc X3) as Xu1'. pose proof (rec_grows _ _ _ _ _ (c_inv _ _ (proj1 U0)) A12) as U1.
      pose proof (grows_ext (append_grows (IBr ebb) u1 (c_inv _ _ (proj1 U1))) Xu1') as Xu1. pose proof (grows_ext U1 Xu1) as Xu0.
      rewrite <- (pos_empty Fc bb z A7) in Ex2. rewrite (pos_compute Rdc Xu0) in Ex2.
      assert (Lm1 : loads m1 rmb = Some (cs ++ rest)) by (apply stores_loads; assumption).
      destruct (exec_load Ex2 Lm1) as (k3 & -> & Ex3). cbn [position regs] in Ex3. set (g3 := upd g1 (regs z) (Some (cs ++ rest))) in *.
      assert (Pe : NoDup erm /\ forall x, In x erm -> exists q, x = Anon q /\ (anon s <= q)%N /\ (q < anon z0)%N).
      { pose proof (from_facts (out_count h n) (anon s)) as (Fl & Fn & Ff). rewrite Erm. split; [apply FinFun.Injective_map_NoDup; [intros x y Q; now injection Q|exact Fn]|].
        intros x Ix. apply in_map_iff in Ix. destruct Ix as (q & <- & Iq). exists q. apply Ff in Iq. split; [reflexivity|]. lia. }
      destruct Pe as [Ne Pe].
      pose proof (c_anon _ _ (proj1 U0)) as Amu0. pose proof (c_regs _ _ (proj1 U0)) as Rmu0. cbn [position anon regs] in *.
      pose proof (c_anon _ _ (proj1 G1)) as Am1. pose proof (c_anon _ _ (proj1 G23)) as Am23. cbn [position anon regs] in *.
      destruct (rec_ok Fc c w erm i o (cs ++ rest) (fun x => In x erm) k3 u0 u1 fr1 m1 g3 oc A12 (c_inv _ _ (proj1 U0)) Xu1) as
        (k4 & fr2 & m2 & g2 & outs & Lk4 & Ex4 & R2 & K2 & Ei2 & Io2 & Lo2 & _); try assumption.
      - lia.
      - cbn. now rewrite N.eqb_refl.
      - rewrite Ew. cbn [r_reg]. unfold g3. apply upd_same.
      - rewrite Ew. cbn [r_reg]. exact Lrw.
      - intros d [Bd _] Nd. exact (enter_env fr c i (cs ++ rest) d Ic Bd Nd).
      - intros d i' s0 q Bd U Ns. pose proof (source_in_case _ _ h Wf Va n rows oi ou c d i' s0 q On Pc Bd U Ns) as Nn.
        refine (held_kept _ _ _ _ _ _ _ _ _ _ s0 K1 Ns _ _); [intros q0 []|]. exact (b_ready _ _ _ _ _ _ _ B d i' s0 q (Bcn d Bd) U Nn).
      - right. split; [exact Ne|]. split; [|auto]. intros x Ix. destruct (Pe x Ix) as (q & -> & _ & Lq). lia.
      - rewrite (pos_append Fc _ _ Xu1') in Ex4. destruct (exec_br Ex4) as (k5 & -> & Ex5).
        rewrite <- (pos_empty Fc ebb z1 Cb) in Ex5. rewrite (pos_compute Rd Xt0) in Ex5. destruct (exec_load Ex5 Lo2) as (k6 & -> & Ex6). cbn [position regs] in Ex6.
        destruct (pos_write Ww Xt1) as [Ep _]. rewrite Ep in Ex6. destruct (exec_store Ex6 ltac:(rewrite Ev; apply upd_same)) as (k7 & vs & -> & Eg7 & Lv & Ex7).
        rewrite Ev in Eg7. cbn [r_reg position regs] in Eg7. rewrite upd_same in Eg7. injection Eg7 as <-.
        assert (Fn : fits h n outs) by (unfold fits; rewrite Lv; now apply outs_length).
        assert (K12 : kept (fun d => below h d c) nothing (anon s) (regs s) fr fr2 m m2 g g2).
        { apply kept_chain with fr1 m1 g1; [exact K1|]. apply kept_chain with fr1 m1 g3; [unfold g3; apply regs_kept; lia|].
          eapply kept_mono; [exact K2|intros d [Bd _]; exact Bd| |lia|lia]. intros x Ix. destruct (Pe x Ix) as (q & -> & Lq & _). right. exact Lq. }
        assert (Nnc : ~ below h n c) by (intros Y; apply (parent_neq c n Pc); exact (up_antisym h Wf c n (kid_below c n Pc) Y)).
        exists k7, (put fr2 n outs), (stores m2 (node_outs h n) outs), (upd g2 (regs z1) (Some outs)). split; [lia|]. split; [rewrite Pend; exact Ex7|]. split; [|split].
        + eapply reach_trans; [exact S1|]. eapply reach_trans; [exact R2|]. apply reach_step.
          refine (s_cond_out _ _ _ _ n rows oi ou tg c i o cs rest outs _ On _ Ek _ Gi _ Io2 Fn).
          * split; [exact In_|]. split.
            -- left. apply (active_kept fr fr2 n); [congruence|apply B|]. intros d Nd. apply (k_env _ _ _ _ _ _ _ _ _ _ K12). intros Bd. exact (Nd (Bcn d Bd)).
            -- rewrite (k_env _ _ _ _ _ _ _ _ _ _ K12) by exact Nnc. apply (b_fresh _ _ _ _ _ _ _ B). apply below_refl.
          * refine (inputs_kept _ _ _ _ _ _ _ _ _ _ n _ K12 (b_func _ _ _ _ _ _ _ B) _ (b_inputs _ _ _ _ _ _ _ B)). intros i' s0 q U Bs.
            exact (source_outside _ _ h Wf Va n i' s0 q U (Bcn s0 Bs)).
          * rewrite A1. reflexivity.
          * congruence.
        + eapply kept_chain; [eapply kept_mono; [exact K12|exact Bcn|intros x []|apply N.le_refl|apply N.le_refl]|].
          eapply kept_chain; [eapply kept_mono; [apply (put_kept _ n outs m2 _ (anon s) (regs s))|intros d ->; apply below_refl|intros x []|apply N.le_refl|apply N.le_refl]|].
          eapply kept_chain; [apply stores_kept; intros x Ix; apply outs_in in Ix; destruct Ix as (q & ->); right; apply below_refl|]. apply regs_kept.
          pose proof (c_regs _ _ (proj1 G01)). lia.
        + apply (held_loads _ _ _ outs In_); [cbn; apply upd_same|]. apply stores_loads; [apply outs_nodup|exact Lv].
    Qed.

    (** ** Control flow graphs *)
    Lemma cfg_kids_other : forall bbs kids outs s s', inv s -> fits_in bbs s -> emit_cfg_kids h rec bbs outs kids s = Some s' ->
      forall x, (x < blocks s)%N -> (forall c rmb, In c kids -> ~ In (c, (x, rmb)) bbs) -> code s' x = code s x.
    Proof.
      intros bbs. induction kids as [|c kids IH]; intros outs s s' I Fb X x Lx Nx; cbn [emit_cfg_kids] in X; [injection X as <-; reflexivity|].
      assert (Nx' : forall c' rmb, In c' kids -> ~ In (c', (x, rmb)) bbs) by (intros c' rmb Ic; apply Nx; now right).
      assert (Step : forall bb rmb z1, block_data bbs c = Some (bb, rmb) -> grows (position bb s) z1 ->
        inv (position (cur s) z1) /\ fits_in bbs (position (cur s) z1) /\ (x < blocks (position (cur s) z1))%N /\ code (position (cur s) z1) x = code s x).
      { intros bb rmb z1 Bd G. pose proof (block_data_in _ _ _ Bd) as Ic. pose proof (in_blocks_at c bb rmb bbs s z1 I Ic (Fb _ _ _ Ic) (proj1 G)) as (A0 & _ & A2 & _).
        split; [exact A0|]. split; [intros c' bb' rm' Ic'; specialize (Fb c' bb' rm' Ic'); lia|]. split; [lia|]. cbn [position code]. rewrite (c_old _ _ (proj1 G)); [reflexivity|exact Lx|].
        cbn [position cur]. intros ->. exact (Nx c rmb (or_introl eq_refl) Ic). }
      destruct (h_ops h c); try discriminate; try (exact (IH _ _ _ I Fb X x Lx Nx')).
      - match type of X with context [emit_block h rec bbs c ?rows s] => destruct (emit_block h rec bbs c rows s) as [z1|] eqn:D; [|discriminate] end.
        destruct (block_grows h rec rec_grows bbs c _ s z1 I Fb D) as (bb & rmb & z & Bd & G & ->). destruct (Step bb rmb z Bd G) as (I1 & F1 & L1 & C1).
        rewrite (IH _ _ _ I1 F1 X x L1 Nx'). exact C1.
      - destruct outs as [ps|]; [|discriminate]. destruct (emit_exit bbs c ps s) as [z1|] eqn:D; [|discriminate].
        destruct (exit_grows bbs c ps s z1 I Fb D) as (bb & rmb & z & Bd & G & -> & _). destruct (Step bb rmb z Bd G) as (I1 & F1 & L1 & C1).
        rewrite (IH _ _ _ I1 F1 X x L1 Nx'). exact C1.
    Qed.

    Lemma cfg_kids_code : forall bbs, (forall c c' bb rm rm', In (c, (bb, rm)) bbs -> In (c', (bb, rm')) bbs -> c = c') ->
      forall kids outs s s', inv s -> fits_in bbs s -> emit_cfg_kids h rec bbs outs kids s = Some s' -> NoDup kids ->
      (forall c bb rmb, In c kids -> In (c, (bb, rmb)) bbs -> code s bb = []) ->
      forall c, In c kids ->
        (forall x y rows, h_ops h c = OBlock x y rows -> exists z z' bb rmb, block_data bbs c = Some (bb, rmb) /\ emit_block h rec bbs c rows z = Some z' /\
           inv z /\ fits_in bbs z /\ code z bb = [] /\ (anon s <= anon z)%N /\ (regs s <= regs z)%N /\ forall Fc, ext Fc s' -> ext Fc z') /\
        (forall r, h_ops h c = OExit r -> exists ps bb rmb x, outs = Some ps /\ block_data bbs c = Some (bb, rmb) /\ code s' bb = [ILoad x rmb; IStore ps x] /\ (regs s <= x)%N).
    Proof.
      intros bbs Inj. induction kids as [|c kids IH]; intros outs s s' I Fb X Nd Em c' Ic'; [destruct Ic'|]. cbn [emit_cfg_kids] in X.
      inversion Nd as [|? ? Nc Nk]; subst.
      assert (Em' : forall c0 bb rmb, In c0 kids -> In (c0, (bb, rmb)) bbs -> code s bb = []) by (intros c0 bb rmb Ic; apply Em; now right).
      assert (Step : forall bb rmb z1, block_data bbs c = Some (bb, rmb) -> grows (position bb s) z1 ->
        in_blocks s (position (cur s) z1) bbs /\ inv (position (cur s) z1) /\ fits_in bbs (position (cur s) z1) /\
        forall c0 bb' rmb', In c0 kids -> In (c0, (bb', rmb')) bbs -> code (position (cur s) z1) bb' = []).
      { intros bb rmb z1 Bd G. pose proof (block_data_in _ _ _ Bd) as Ic. pose proof (in_blocks_at c bb rmb bbs s z1 I Ic (Fb _ _ _ Ic) (proj1 G)) as IB. split; [exact IB|].
        destruct IB as (A0 & _ & A2 & _). split; [exact A0|]. split; [intros c0 bb' rm' Ic0; specialize (Fb c0 bb' rm' Ic0); lia|]. intros c0 bb' rm' Ic0 Id. cbn [position code].
        rewrite (c_old _ _ (proj1 G)); [exact (Em' _ _ _ Ic0 Id)|exact (Fb _ _ _ Id)|]. cbn [position cur]. intros ->. rewrite (Inj _ _ _ _ _ Id Ic) in Ic0. exact (Nc Ic0). }
      destruct (h_ops h c) eqn:Oc; try discriminate;
        try (destruct Ic' as [->|Ic']; [split; intros; congruence|exact (IH _ _ _ I Fb X Nk Em' c' Ic')]).
      - match type of X with context [emit_block h rec bbs c ?rows s] => destruct (emit_block h rec bbs c rows s) as [z1|] eqn:D; [|discriminate] end.
        destruct (block_grows h rec rec_grows bbs c _ s z1 I Fb D) as (bb & rmb & z & Bd & G & ->). destruct (Step bb rmb z Bd G) as (IB & I1 & F1 & E1).
        pose proof (cfg_kids_grows h rec rec_grows _ _ _ _ _ I1 F1 X) as (_ & _ & _ & _ & _ & A5 & _).
        destruct Ic' as [<-|Ic'].
        + split; [|intros; congruence]. intros x y rows0 Oc'. rewrite Oc in Oc'. injection Oc' as <- <- <-. eexists s, _, bb, rmb. split; [exact Bd|]. split; [exact D|]. split; [exact I|]. split; [exact Fb|].
          split; [exact (Em c bb rmb (or_introl eq_refl) (block_data_in _ _ _ Bd))|]. split; [lia|]. split; [lia|].
          intros Fc Xe q. destruct (Xe q) as (t & Et). destruct (A5 q) as (t' & Et'). exists (t' ++ t). now rewrite Et, Et', app_assoc.
        + destruct (IH _ _ _ I1 F1 X Nk E1 c' Ic') as [Y1 Y2]. destruct IB as (_ & _ & _ & Lr & La & _). split.
          * intros x y rows0 Oc'. destruct (Y1 x y rows0 Oc') as (w & w' & bb' & rmb' & Q1 & Q2 & Q3 & Q4 & Q5 & Q6 & Q7 & Q8). exists w, w', bb', rmb'. repeat (split; [first [assumption|lia]|]). exact Q8.
          * intros r Oc'. destruct (Y2 r Oc') as (ps & bb' & rmb' & x & Q1 & Q2 & Q3 & Q4). exists ps, bb', rmb', x. repeat (split; [assumption|]). lia.
      - destruct outs as [ps|]; [|discriminate]. destruct (emit_exit bbs c ps s) as [z1|] eqn:D; [|discriminate].
        destruct (exit_grows bbs c ps s z1 I Fb D) as (bb & rmb & z & Bd & G & -> & Lps & Cz & _). destruct (Step bb rmb z Bd G) as (IB & I1 & F1 & E1).
        pose proof (block_data_in _ _ _ Bd) as Ibd.
        destruct Ic' as [<-|Ic'].
        + split; [intros; congruence|]. intros r0 _. exists ps, bb, rmb, (regs s). split; [reflexivity|]. split; [exact Bd|]. split; [|lia].
          rewrite (cfg_kids_other bbs kids None _ s' I1 F1 X).
          * cbn [position code]. rewrite Cz. rewrite (Em c bb rmb (or_introl eq_refl) Ibd). reflexivity.
          * destruct IB as (_ & _ & Lb & _). specialize (Fb _ _ _ Ibd). lia.
          * intros c0 rm0 Ic0 Id. rewrite (Inj _ _ _ _ _ Id Ibd) in Ic0. exact (Nc Ic0).
        + destruct (IH _ _ _ I1 F1 X Nk E1 c' Ic') as [Y1 Y2]. destruct IB as (_ & _ & _ & Lr & La & _). split.
          * intros x y rows0 Oc'. destruct (Y1 x y rows0 Oc') as (w & w' & bb' & rmb' & Q1 & Q2 & Q3 & Q4 & Q5 & Q6 & Q7 & Q8). exists w, w', bb', rmb'. repeat (split; [first [assumption|lia]|]). exact Q8.
          * intros r0 Oc'. destruct (Y2 r0 Oc') as (ps' & bb' & rmb' & x & Q1 & _). discriminate.
    Qed.

    Lemma cfg_blocks_facts : forall n ebb kids (s : st) l s', inv s -> cfg_blocks h n ebb kids s = Some (l, s') -> NoDup kids -> (ebb < blocks s)%N ->
      (forall c x, In (c, x) l -> In c kids) /\
      (forall c bb rmb, In (c, (bb, rmb)) l ->
         (exists i o x y rows, h_ops h c = OBlock x y rows /\ fat_io h c = Some (i, o) /\ rmb = node_outs h i /\ (blocks s <= bb)%N) \/
         (exists r, h_ops h c = OExit r /\ bb = ebb /\ NoDup rmb /\ length rmb = out_count h n /\ forall x, In x rmb -> exists q, x = Anon q /\ (anon s <= q)%N)) /\
      (forall c c' bb rm rm', In (c, (bb, rm)) l -> In (c', (bb, rm')) l -> bb = ebb \/ c = c').
    Proof.
      intros n ebb. induction kids as [|c kids IH]; intros s l s' I X Nd Le; cbn [cfg_blocks] in X.
      - injection X as <- <-. split; [intros ? ? []|]. split; [intros ? ? ? []|intros ? ? ? ? ? []].
      - inversion Nd as [|? ? Nc Nk]; subst.
        assert (Skip : cfg_blocks h n ebb kids s = Some (l, s') ->
          (forall c0 x, In (c0, x) l -> In c0 (c :: kids)) /\
          (forall c0 bb rmb, In (c0, (bb, rmb)) l ->
             (exists i o x y rows, h_ops h c0 = OBlock x y rows /\ fat_io h c0 = Some (i, o) /\ rmb = node_outs h i /\ (blocks s <= bb)%N) \/
             (exists r, h_ops h c0 = OExit r /\ bb = ebb /\ NoDup rmb /\ length rmb = out_count h n /\ forall x, In x rmb -> exists q, x = Anon q /\ (anon s <= q)%N)) /\
          (forall c0 c' bb rm rm', In (c0, (bb, rm)) l -> In (c', (bb, rm')) l -> bb = ebb \/ c0 = c')).
        { intros Y. destruct (IH s l s' I Y Nk Le) as (A1 & A2 & A3). split; [intros c0 x Ic; right; exact (A1 _ _ Ic)|]. split; assumption. }
        destruct (h_ops h c) eqn:Oc; try exact (Skip X).
        + clear Skip. destruct (new_block s) as [bb z0] eqn:B0. destruct (new_block_grows _ _ _ I B0) as (G0 & Eb0 & Cb0 & Lb0 & Cu0).
          destruct (fat_io h c) as [[i' o']|] eqn:Fa; [|discriminate]. destruct (cfg_blocks h n ebb kids z0) as [[l' z1]|] eqn:D; [|discriminate]. injection X as <- <-.
          pose proof (c_blocks _ _ (proj1 G0)) as Lb. pose proof (c_anon _ _ (proj1 G0)) as La.
          destruct (IH z0 l' z1 (c_inv _ _ (proj1 G0)) D Nk) as (A1 & A2 & A3); [lia|].
          assert (New : forall c0 rm, In (c0, (bb, rm)) l' -> False).
          { intros c0 rm Ic. destruct (A2 _ _ _ Ic) as [(a1 & a2 & a3 & a4 & a5 & _ & _ & _ & Lx)|(r & _ & Ex & _)]; lia. }
          split; [intros c0 x [Ic|Ic]; [injection Ic as <- <-; now left|right; exact (A1 _ _ Ic)]|]. split.
          * intros c0 bb' rmb [Ic|Ic].
            -- injection Ic as <- <- <-. left. do 5 eexists. split; [exact Oc|]. split; [exact Fa|]. split; [reflexivity|]. lia.
            -- destruct (A2 _ _ _ Ic) as [(a1 & a2 & a3 & a4 & a5 & Q1 & Q2 & Q3 & Lx)|(r & Q1 & Q2 & Q3 & Q4 & Q5)]; [left; exists a1, a2, a3, a4, a5; repeat (split; [assumption|]); lia|right].
               exists r. repeat (split; [assumption|]). intros x Ix. destruct (Q5 x Ix) as (q & -> & Lq). exists q. split; [reflexivity|lia].
          * intros c0 c1 bb' rm rm' [Ic|Ic] [Id|Id].
            -- right. congruence.
            -- assert (bb' = bb) by congruence. subst bb'. destruct (New _ _ Id).
            -- assert (bb' = bb) by congruence. subst bb'. destruct (New _ _ Ic).
            -- exact (A3 _ _ _ _ _ Ic Id).
        + clear Skip. destruct (new_row_mail_box (out_count h n) s) as [rmb z0] eqn:R0. destruct (new_row_grows _ _ _ _ I R0) as (G0 & Cu0 & Erm & An & _).
          destruct (cfg_blocks h n ebb kids z0) as [[l' z1]|] eqn:D; [|discriminate]. injection X as <- <-.
          pose proof (c_blocks _ _ (proj1 G0)) as Lb.
          destruct (IH z0 l' z1 (c_inv _ _ (proj1 G0)) D Nk) as (A1 & A2 & A3); [lia|].
          split; [intros c0 x [Ic|Ic]; [injection Ic as <- <-; now left|right; exact (A1 _ _ Ic)]|]. split.
          * intros c0 bb' rmb' [Ic|Ic].
            -- injection Ic as <- <- <-. right. eexists. split; [exact Oc|]. split; [reflexivity|]. pose proof (from_facts (out_count h n) (anon s)) as (Fl & Fn & Ff). rewrite Erm.
               split; [apply FinFun.Injective_map_NoDup; [intros x y Q; now injection Q|exact Fn]|]. split; [rewrite map_length; exact Fl|].
               intros x Ix. apply in_map_iff in Ix. destruct Ix as (q & <- & Iq). exists q. apply Ff in Iq. split; [reflexivity|]. lia.
            -- destruct (A2 _ _ _ Ic) as [(a1 & a2 & a3 & a4 & a5 & Q1 & Q2 & Q3 & Lx)|(r' & Q1 & Q2 & Q3 & Q4 & Q5)]; [left; exists a1, a2, a3, a4, a5; repeat (split; [assumption|]); lia|right].
               exists r'. repeat (split; [assumption|]). intros x Ix. destruct (Q5 x Ix) as (q & -> & Lq). exists q. split; [reflexivity|lia].
          * intros c0 c1 bb' rm rm' [Ic|Ic] [Id|Id]; try (injection Ic as <- <- <-; now left); try (injection Id as <- <- <-; now left). exact (A3 _ _ _ _ _ Ic Id).
    Qed.

    Lemma nth_single : forall {A B} (f : A -> list B) l k, (forall a, In a l -> length (f a) = 1) ->
      nth_error (flat_map f l) k = match nth_error l k with Some a => hd_error (f a) | None => None end.
    Proof.
      intros A B f. induction l as [|a l IH]; intros k H; [now destruct k|]. cbn [flat_map]. pose proof (H a (or_introl eq_refl)) as La.
      destruct (f a) as [|x [|y r]] eqn:Ef; try discriminate. destruct k as [|k]; cbn [nth_error app]; [now rewrite Ef|]. apply IH. intros c Ic. apply H. now right.
    Qed.

    (** The successors of a block. *)
    Lemma successor_at : forall n sg bk x y rows k t, h_ops h n = OCfg sg -> h_parent h bk = Some n -> h_ops h bk = OBlock x y rows ->
      nth_error (successors h bk) k = Some t -> exists j, In (t, j) (linked_inputs h bk k) /\ h_parent h t = Some n /\ sibling_edge h n bk t /\
        ((exists a c d, h_ops h t = OBlock a c d) \/ (exists r, h_ops h t = OExit r /\ nth_error (h_kids h n) 1 = Some t)).
    Proof.
      intros n sg bk x y rows k t On Pb Ob Ek. pose proof (proj1 (kid_live h Wf bk n Pb)) as Ib. pose proof (proj2 (kid_live h Wf bk n Pb)) as In_.
      destruct (v_ports _ _ _ Va bk Ib) as (ki & ko & Pki & Pko & _ & Eo).
      assert (Ek' : ko = map (fun _ => EControl) rows) by (rewrite (ports_row _ _ _ Pko), Ob; reflexivity).
      assert (Ctl : forall p, p < h_out h bk -> kind_at h bk Out p EControl).
      { intros p Lp. exists ko. split; [exact Pko|]. rewrite Eo in Lp. destruct (nth_error ko p) as [e|] eqn:Ee; [|apply nth_error_None in Ee; lia].
        rewrite Ek' in Ee. destruct (nth_map_inv _ _ _ _ Ee) as (? & _ & <-). reflexivity. }
      assert (One : forall p, In p (seq 0 (h_out h bk)) -> length (map fst (linked_inputs h bk p)) = 1).
      { intros p Ip. apply in_seq in Ip. unfold linked_inputs. rewrite !map_length. apply (v_outputs _ _ _ Va bk p EControl Ib); [apply Ctl; lia|exact Logic.I]. }
      unfold successors in Ek. rewrite (nth_single (fun p => map fst (linked_inputs h bk p)) _ _ One) in Ek.
      destruct (nth_error (seq 0 (h_out h bk)) k) as [p|] eqn:Ep; [|discriminate].
      assert (p = k /\ k < h_out h bk) as [-> Lk].
      { assert (Lk : k < length (seq 0 (h_out h bk))) by (apply nth_error_Some; congruence). rewrite seq_length in Lk. rewrite (nth_error_nth' _ 0) in Ep by (rewrite seq_length; exact Lk). rewrite seq_nth in Ep by exact Lk. injection Ep as <-. auto. }
      destruct (linked_inputs h bk k) as [|[t' j] rest] eqn:Ll; [discriminate|]. cbn in Ek. injection Ek as ->. exists j.
      assert (Lnk : In ((bk, k), (t, j)) (h_links h)).
      { assert (X : In (t, j) (linked_inputs h bk k)) by (rewrite Ll; now left). unfold linked_inputs in X. apply in_map_iff in X. destruct X as ([a c] & Ea & X). apply filter_In in X. cbn in *.
        destruct X as [X Q]. apply ep_eqb_iff in Q. now subst. }
      split; [now left|].
      destruct (v_links _ _ _ Va bk k t j Lnk) as (kd & (ks & Pk & Es) & _ & Lo).
      assert (kd = EControl). { rewrite (ports_row _ _ _ Pk), <- (ports_row _ _ _ Pko), Ek' in Es. destruct (nth_map_inv _ _ _ _ Es) as (? & _ & <-). reflexivity. }
      subst kd. assert (Pt : h_parent h t = Some n).
      { inversion Lo as [r Ps Pd|r [(u & K)|(u & K)] _ _ _|u r a K _ _ _ _ _ _|u c d g z K _ _ _ _ _ _ _ _ _]; try discriminate. congruence. }
      split; [exact Pt|]. split; [split; [exact Pb|]; split; [exact Pt|]; eauto|].
      destruct sg as [sgi sgo]. destruct (v_cfg _ _ _ Va n In_ sgi sgo On) as [(a & e & rs & Kn & (oo & rws & Oa) & Oe & Nr) Br].
      destruct (Br bk t k j Pb Pt Lnk) as (x' & ot & rw & r & _ & _ & [(oo' & rs' & Ot)|Ot]); [left; eauto|right]. exists (r ++ ot). split; [exact Ot|].
      assert (It : In t (h_kids h n)) by (now apply (wf_kids h Wf)). rewrite Kn in It |- *. destruct It as [<-|[<-|It]]; [rewrite Oa in Ot; discriminate|reflexivity|].
      exfalso. apply (Nr t It). rewrite Ot. exact Logic.I.
    Qed.

    Lemma walk_end : forall R a l c d, walk R a l c -> R c d -> walk R a (l ++ [d]) d.
    Proof. intros R a l c d X Y. induction X as [a|a e l c Ee X IH]; cbn; [eapply walk_step; [exact Y|constructor]|]. eapply walk_step; [exact Ee|]. now apply IH. Qed.

    Lemma each_some_at : forall {A B} (f : A -> option B) l ys k y, each_some f l = Some ys -> nth_error ys k = Some y -> exists a, nth_error l k = Some a /\ f a = Some y.
    Proof.
      intros A B f l ys k y X Y. apply each_some_nth in X. destruct X as [L X]. specialize (X k). rewrite Y in X. destruct (nth_error l k) as [a|]; [|discriminate]. eauto.
    Qed.

    Lemma move_kept : forall (fr : frame) n x m g (ch : N -> Prop) (ex : ptr -> Prop) a r, ch n -> kept ch ex a r fr (move fr n x) m m g g.
    Proof. intros fr n x m g ch ex a r Cn. constructor; try reflexivity. intros d Nd. cbn. apply upd_other. intros ->. exact (Nd Cn). Qed.

    Lemma cfg_sim : forall Fc n sg a ins k s s' fr m g oc, h_ops h n = OCfg sg -> emit_cfg h rec n a (node_outs h n) s = Some s' ->
      before n a ins s fr m g -> ext Fc s' -> k <= b -> run Fc k (pos Fc s) m g oc -> node_done Fc n k s s' fr m g oc.
    Proof.
      intros Fc n sg a ins k s s' fr m g oc On X B Xe Lk Ex. pose proof (b_node _ _ _ _ _ _ _ B) as In_. pose proof (b_inv _ _ _ _ _ _ _ B) as I.
      unfold emit_cfg in X. destruct (new_block s) as [ebb z0] eqn:B0. destruct (new_block_grows _ _ _ I B0) as (G0 & Eb0 & Cb0 & Lb0 & Cu0).
      destruct (cfg_blocks h n ebb (h_kids h n) z0) as [[bbs z1]|] eqn:Cb; [|discriminate].
      destruct (cfg_blocks_grows h n ebb (h_kids h n) z0 bbs z1 (c_inv _ _ (proj1 G0)) Cb) as (G1 & Cu1 & Co1 & Re1 & Bb1).
      assert (Ndk : NoDup (h_kids h n)) by (apply (wf_kids_once h Wf)).
      destruct (cfg_blocks_facts n ebb (h_kids h n) z0 bbs z1 (c_inv _ _ (proj1 G0)) Cb Ndk Lb0) as (K1 & K2 & K3).
      destruct (entry_exit h n) as [[entry exit]|] eqn:Ee; [|discriminate].
      destruct (block_data bbs entry) as [[entry_bb rmb]|] eqn:Be; [|discriminate].
      destruct (write rmb a z1) as [z2|] eqn:Ww; [|discriminate].
      pose proof (write_grows _ _ _ _ (c_inv _ _ (proj1 G1)) Ww) as G2.
      set (z2' := append (IBr entry_bb) z2) in *.
      assert (G3 : grows z2 z2') by (apply append_grows; apply (c_inv _ _ (proj1 G2))).
      destruct (emit_cfg_kids h rec bbs (Some (node_outs h n)) (h_kids h n) z2') as [z3|] eqn:Ck; [|discriminate].
      destruct (block_data bbs exit) as [[xb rmx]|] eqn:Bx; [|discriminate]. injection X as <-.
      (* the children *)
      assert (Kids : exists rest oo rows x, h_kids h n = entry :: exit :: rest /\ h_ops h entry = OBlock x oo rows /\ exists r, h_ops h exit = OExit r).
      { unfold entry_exit in Ee. destruct (h_kids h n) as [|c1 [|c2 rest]]; try discriminate. destruct (h_ops h c1) eqn:O1; try discriminate. destruct (h_ops h c2) eqn:O2; try discriminate.
        injection Ee as <- <-. do 4 eexists. split; [reflexivity|]. split; [exact O1|]. eauto. }
      destruct Kids as (restk & eoo & erows & ex & Kn & Oe & rx & Ox).
      assert (Pe : h_parent h entry = Some n) by (apply (wf_kids h Wf); rewrite Kn; now left).
      assert (Px : h_parent h exit = Some n) by (apply (wf_kids h Wf); rewrite Kn; right; now left).
      assert (Exits : forall c r, In c (h_kids h n) -> h_ops h c = OExit r -> c = exit).
      { intros c r Ic Oc. destruct sg as [sgi sgo]. destruct (v_cfg _ _ _ Va n In_ sgi sgo On) as [(a1 & e1 & rs & Kn' & _ & _ & Nr) _]. rewrite Kn in Kn'. injection Kn' as <- <- <-.
        rewrite Kn in Ic. destruct Ic as [<-|[<-|Ic]]; [congruence|reflexivity|]. exfalso. apply (Nr c Ic). rewrite Oc. exact Logic.I. }
      assert (Inj : forall c c' bb rm rm', In (c, (bb, rm)) bbs -> In (c', (bb, rm')) bbs -> c = c').
      { intros c c' bb rm rm' I1 I2. destruct (K3 _ _ _ _ _ I1 I2) as [Eb|Eb]; [|exact Eb]. subst bb.
        destruct (K2 _ _ _ I1) as [(? & ? & ? & ? & ? & _ & _ & _ & Lx)|(r1 & O1 & _)]; [lia|].
        destruct (K2 _ _ _ I2) as [(? & ? & ? & ? & ? & _ & _ & _ & Lx)|(r2 & O2 & _)]; [lia|].
        rewrite (Exits c r1 (K1 _ _ I1) O1). symmetry. exact (Exits c' r2 (K1 _ _ I2) O2). }
      assert (I2 : inv z2') by apply (c_inv _ _ (proj1 G3)).
      pose proof (c_blocks _ _ (proj1 G0)) as Lb00. pose proof (c_blocks _ _ (proj1 G1)) as Lb11. pose proof (c_blocks _ _ (proj1 G2)) as Lb22. pose proof (c_blocks _ _ (proj1 G3)) as Lb33.
      assert (Fb1 : fits_in bbs z1) by (intros c bb rm Ic; destruct (Bb1 _ _ _ Ic) as [[-> _]|?]; lia).
      assert (Fb : fits_in bbs z2') by (intros c bb rm Ic; specialize (Fb1 _ _ _ Ic); lia).
      assert (Cuz : cur z1 = cur s) by congruence. assert (Cu2 : cur z2 = cur s) by (apply write_inv in Ww; destruct Ww as [_ ->]; exact Cuz).
      assert (Emp1 : forall c bb rm, In (c, (bb, rm)) bbs -> code z1 bb = [] /\ bb <> cur s).
      { intros c bb rm Ic. pose proof (proj2 I) as Lcs. rewrite Co1. destruct (Bb1 _ _ _ Ic) as [[-> _]|[L1 _]]; [split; [exact Cb0|lia]|]. split; [|lia]. apply (proj1 (c_inv _ _ (proj1 G0))). lia. }
      assert (Emp : forall c bb rm, In c (h_kids h n) -> In (c, (bb, rm)) bbs -> code z2' bb = []).
      { intros c bb rm _ Ic. destruct (Emp1 _ _ _ Ic) as [E1 Nc]. rewrite (c_old _ _ (proj1 G3)); [rewrite (c_old _ _ (proj1 G2)); [exact E1|exact (Fb1 _ _ _ Ic)|congruence]|specialize (Fb1 _ _ _ Ic); lia|congruence]. }
      pose proof (cfg_kids_code bbs Inj _ _ _ _ I2 Fb Ck Ndk Emp) as Code.
      pose proof (cfg_kids_grows h rec rec_grows _ _ _ _ _ I2 Fb Ck) as (_ & _ & _ & _ & _ & Ext3 & _).
      assert (Xz3 : ext Fc z3) by exact Xe.
      assert (Xz2' : ext Fc z2') by (intros q; destruct (Xe q) as (t & Et); destruct (Ext3 q) as (t' & Et'); exists (t' ++ t); cbn [position code] in Et; now rewrite Et, Et', app_assoc).
      pose proof (grows_ext G3 Xz2') as Xz2.
      assert (Ar : (anon s <= anon z0)%N /\ (anon z0 <= anon z2')%N /\ (regs s <= regs z2')%N).
      { pose proof (c_anon _ _ (proj1 G0)). pose proof (c_anon _ _ (proj1 G1)). pose proof (c_anon _ _ (proj1 G2)). pose proof (c_anon _ _ (proj1 G3)).
        pose proof (c_regs _ _ (proj1 G0)). pose proof (c_regs _ _ (proj1 G1)). pose proof (c_regs _ _ (proj1 G2)). pose proof (c_regs _ _ (proj1 G3)). lia. }
      destruct Ar as (Aa0 & Aa2 & Rr2).
      (* the exit block *)
      assert (Ixk : In exit (h_kids h n)) by (rewrite Kn; right; now left).
      destruct (proj2 (Code exit Ixk) rx Ox) as (psx & xb' & rmx' & rgx & Eps & Bx' & Cx & Lrx). injection Eps as <-. rewrite Bx in Bx'. injection Bx' as <- <-.
      assert (Rmx : NoDup rmx /\ length rmx = out_count h n /\ forall x, In x rmx -> exists q, x = Anon q /\ (anon s <= q)%N).
      { destruct (K2 _ _ _ (block_data_in _ _ _ Bx)) as [(? & ? & ? & ? & ? & Ob & _)|(r1 & _ & _ & Q1 & Q2 & Q3)]; [congruence|].
        split; [exact Q1|]. split; [exact Q2|]. intros x Ix. destruct (Q3 x Ix) as (q & -> & Lq). exists q. split; [reflexivity|lia]. }
      destruct Rmx as (Nrx & Lrmx & Arx).
      assert (Pend : Fc xb = ILoad rgx rmx :: IStore (node_outs h n) rgx :: pos Fc (position xb z3)).
      { destruct (Xz3 xb) as (t & Et). unfold pos. cbn [position code cur]. rewrite Et, Cx. reflexivity. }
      assert (Kbelow : forall c d, h_parent h c = Some n -> below h d c -> below h d n) by (intros c d Pc Bd; exact (below_up h c n d Pc Bd)).
      assert (Knot : forall c, h_parent h c = Some n -> ~ below h n c) by (intros c Pc Y; apply (parent_neq c n Pc); exact (up_antisym h Wf c n (kid_below c n Pc) Y)).
      (* from block to block *)
      assert (Loop : forall k m g fr bk bb x y rows i o cs path, k <= b -> h_parent h bk = Some n -> h_ops h bk = OBlock x y rows -> get_io h bk = Some (i, o) ->
        block_data bbs bk = Some (bb, node_outs h i) -> run Fc k (Fc bb) m g oc -> func_start fr -> active h fr n -> env fr n = None -> pc fr n = Some bk ->
        env fr i = Some cs -> fits h i cs -> loads m (node_outs h i) = Some cs -> (forall d, strict d bk -> d <> i -> env fr d = None /\ pc fr d = None) ->
        ready fr m n -> walk (sibling_edge h n) entry path bk ->
        (forall v, In v path -> v <> bk -> forall c, h_parent h c = Some v -> 0 < out_count h c -> held fr m c) ->
        exists k' fr' m' g', k' < k /\ run Fc k' (pos Fc (position xb z3)) m' g' oc /\ reach fr fr' /\
          kept (fun d => below h d n) nothing (anon s) (regs s) fr fr' m m' g g' /\ held fr' m' n).
      { clear k fr m g Ex Lk B. intros k. induction k as [k IH] using lt_wf_ind.
        intros m g fr bk bb x y rows i o cs path Lk Pb Ob Gi Bd Ex Fs Ac En Pn Ei Fi Lo Fresh Rdy Wk Done.
        pose proof (proj1 (kid_live h Wf bk n Pb)) as Ib. assert (Ibk : In bk (h_kids h n)) by (now apply (wf_kids h Wf)).
        destruct (io_facts bk i o Ib Gi) as (Pi & Po & Fa & _).
        destruct (proj1 (Code bk Ibk) x y rows Ob) as (z & z' & bb' & rm' & Bd' & Em & Iz & Fz & Cz & Az & Rz & Xz). rewrite Bd in Bd'. injection Bd' as <- <-.
        specialize (Xz Fc Xz3). unfold emit_block in Em. rewrite Bd in Em. destruct (each_some (block_data bbs) (successors h bk)) as [succ|] eqn:Es; [|discriminate].
        destruct (build_positioned bb _ z) as [[u w]|] eqn:P; [|discriminate]. cbn in Em. injection Em as <-. apply positioned_inv in P. destruct P as (t & P & ->).
        rewrite Fa in P. destruct (node_ins h o) as [orm|] eqn:No; [|discriminate].
        pose proof (position_inv bb z Iz (Fz _ _ _ (block_data_in _ _ _ Bd))) as Ip.
        destruct (read (node_outs h i) (position bb z)) as [v t0] eqn:Rd. rewrite read_compute in Rd. destruct (compute_grows _ _ _ _ _ Ip Rd) as (H1 & Ev & Lr1 & Cu1' & An1 & _).
        destruct (rec bk v orm t0) as [t1|] eqn:Rc; [|discriminate]. pose proof (rec_grows _ _ _ _ _ (c_inv _ _ (proj1 H1)) Rc) as H2.
        destruct (read orm t1) as [res t2] eqn:Rd2. rewrite read_compute in Rd2. destruct (compute_grows _ _ _ _ _ (c_inv _ _ (proj1 H2)) Rd2) as (H3 & Er & Lr3 & _).
        match type of P with context [build_destructure ?hd _ _ _] => set (hand := hd) in * end.
        destruct (build_destructure hand res _ t2) as [t3|] eqn:D; [|discriminate]. injection P as _ <-.
        assert (Hh : forall k vs s s', inv s -> hand k vs s = Some s' -> core s s').
        { intros k0 vs q q' Iq Q. unfold hand in Q. destruct (nth_error succ k0) as [[rm b']|]; [|discriminate]. apply (write_br_core _ _ _ _ _ Iq Q). }
        destruct (build_destructure_grows _ _ _ _ _ Hh (c_inv _ _ (proj1 H3)) D) as [H4 _].
        assert (X3 : ext Fc t3) by exact Xz. pose proof (grows_ext H4 X3) as X2. pose proof (grows_ext H3 X2) as X1. pose proof (grows_ext H2 X1) as X0.
        pose proof (c_anon _ _ (proj1 H1)) as Am1. pose proof (c_regs _ _ (proj1 H1)) as Rm1. cbn [position anon regs] in Am1, Rm1, Lr1, Ev.
        pose proof (c_anon _ _ (proj1 H2)) as Am2. pose proof (c_regs _ _ (proj1 H2)) as Rm2.
        pose proof (c_anon _ _ (proj1 H3)) as Am3. pose proof (c_regs _ _ (proj1 H3)) as Rm3.
        rewrite <- (pos_empty Fc bb z Cz) in Ex. rewrite (pos_compute Rd X0) in Ex.
        destruct (exec_load Ex Lo) as (k1 & -> & Ex1). cbn [position regs] in Ex1. set (g1 := upd g (regs z) (Some cs)) in *.
        assert (Rb : ready fr m bk).
        { intros d i' s0 q Bds U Ns. destruct (source_in_block _ _ h Wf Va n sg bk d i' s0 q On Pb Bds U Ns) as [Nn|(b' & P1 & P2 & P3 & e' & rs' & Kn' & _ & Dom)].
          - exact (Rdy d i' s0 q (Kbelow bk d Pb Bds) U Nn).
          - rewrite Kn in Kn'. injection Kn' as <- _. destruct (uses_facts _ _ h Wf Va _ _ _ _ U) as (_ & _ & Lq & _). apply (Done b' (Dom path Wk) P3 s0 P1). lia. }
        destruct (rec_ok Fc bk v orm i o cs nothing k1 t0 t1 fr m g1 oc Rc (c_inv _ _ (proj1 H1)) X1) as
          (k2 & fr2 & m2 & g2 & outs & Lk2 & Ex2 & R2 & K2r & Ei2 & Io2 & Lo2 & Held2); try assumption.
        - lia.
        - rewrite Ev. cbn [r_reg]. unfold g1. apply upd_same.
        - rewrite Ev. cbn [r_reg]. exact Lr1.
        - left. exact No.
        - rewrite (pos_compute Rd2 X2) in Ex2. destruct (exec_load Ex2 Lo2) as (k3 & -> & Ex3). set (g3 := upd g2 (regs t1) (Some outs)) in *.
          destruct (destructure_run Hh (c_inv _ _ (proj1 H3)) D X3 Ex3 ltac:(eexists; rewrite Er; unfold g3; apply upd_same)) as (tg & cs' & rest & len & sA & sB & rr & k4 & Eg & El & Lc & Hd & IA & CA & XB & L1 & L2 & L3 & L4 & Ex4).
          rewrite Er in Eg. cbn [r_reg] in Eg. unfold g3 in Eg. rewrite upd_same in Eg. injection Eg as Eo. subst outs.
          destruct (nth_map_inv _ _ _ _ El) as (rw & Erw & Elr).
          assert (Lcr : length cs' = length rw) by (exact (eq_trans Lc (eq_sym Elr))).
          set (g4 := upd g3 rr (Some (cs' ++ rest))) in *.
          assert (K2' : kept (fun d => strict d bk) nothing (anon s) (regs s) fr fr2 m m2 g g4).
          { apply kept_chain with fr m g1; [unfold g1; apply regs_kept; lia|]. apply kept_chain with fr2 m2 g2; [eapply kept_mono; [exact K2r|auto|intros q []|lia|lia]|].
            apply kept_chain with fr2 m2 g3; [unfold g3; apply regs_kept; lia|apply regs_kept; lia]. }
          assert (Ac2 : active h fr2 n).
          { apply (active_kept fr fr2 n); [congruence|exact Ac|]. intros d Nd. apply (k_env _ _ _ _ _ _ _ _ _ _ K2r). intros [Bdd _]. exact (Nd (Kbelow bk d Pb Bdd)). }
          assert (En2 : env fr2 n = None) by (rewrite (k_env _ _ _ _ _ _ _ _ _ _ K2r); [exact En|intros [Y _]; exact (Knot bk Pb Y)]).
          assert (Pn2 : pc fr2 n = Some bk) by (rewrite (k_pc _ _ _ _ _ _ _ _ _ _ K2r); [exact Pn|intros [Y _]; exact (Knot bk Pb Y)]).
          assert (Wt : waiting h fr2 n) by (split; [exact In_|]; split; [left; exact Ac2|exact En2]).
          assert (Fs2 : func_start fr2) by exact (func_kept _ _ (k_start _ _ _ _ _ _ _ _ _ _ K2r) Fs).
          unfold hand in Hd. destruct (nth_error succ tg) as [[target trm]|] eqn:Et; [|discriminate].
          destruct (each_some_at _ _ _ _ _ Es Et) as (tn & Etn & Btn).
          destruct (successor_at n sg bk x y rows tg tn On Pb Ob Etn) as (j & Ij & Pt & Sib & Kind).
          destruct (write_br_run Hd IA XB Ex4 ltac:(eexists; unfold g4; apply upd_same)) as (k5 & cs5 & L5 & Eg5 & Lc5 & _ & Ex5). cbn [r_reg] in Eg5. unfold g4 in Eg5. rewrite upd_same in Eg5. injection Eg5 as <-.
          assert (Itn : In tn (h_kids h n)) by (now apply (wf_kids h Wf)).
          assert (Itl : In tn (h_nodes h)) by exact (proj1 (kid_live h Wf tn n Pt)).
          destruct Kind as [(a1 & a2 & a3 & Ot)|(r1 & Ot & Snd)].
          + destruct (K2 _ _ _ (block_data_in _ _ _ Btn)) as [(i' & o' & b1 & b2 & b3 & _ & Fat & Etr & _)|(r2 & O2 & _)]; [|congruence]. subst trm.
            pose proof (fat_get_io h tn i' o' Fat) as Gt. destruct (io_facts tn i' o' Itl Gt) as (Pi' & Po' & _).
            pose proof (proj1 (kid_live h Wf i' tn Pi')) as Ni'.
            assert (Fi5 : fits h i' (cs' ++ rest)) by (unfold fits; rewrite Lc5; now apply outs_length).
            set (fr4 := enter h fr2 tn i' (cs' ++ rest)). set (fr5 := move fr4 n (Some tn)). set (m5 := stores m2 (node_outs h i') (cs' ++ rest)) in *.
            assert (S5 : reach fr2 fr5).
            { apply reach_step. refine (s_branch _ _ _ _ n sg bk x y rows i o tg cs' rest rw tn j i' o' Wt On Pn2 Ob Gi Io2 Erw Lcr Ij Itn _ Gt Fi5). rewrite Ot. reflexivity. }
            assert (K45 : kept (fun d => below h d tn) nothing (anon s) (regs s) fr2 fr4 m2 m5 g4 g4).
            { apply kept_chain with fr4 m2 g4; [apply enter_kept; [exact Itl|apply kid_below; exact Pi']|]. apply stores_kept. intros q Iq. apply outs_in in Iq. destruct Iq as (p & ->). right. apply kid_below. exact Pi'. }
            assert (Env5 : env fr5 = env fr4) by reflexivity.
            assert (H45 : forall c, held fr4 m5 c -> held fr5 m5 c) by (intros c Y; exact Y).
            assert (K5 : kept (fun d => below h d n) nothing (anon s) (regs s) fr fr5 m m5 g g4).
            { apply kept_chain with fr2 m2 g4; [eapply kept_mono; [exact K2'|intros d [Bdd _]; exact (Kbelow bk d Pb Bdd)|intros q []|apply N.le_refl|apply N.le_refl]|].
              apply kept_chain with fr4 m5 g4; [eapply kept_mono; [exact K45|intros d Bdd; exact (Kbelow tn d Pt Bdd)|intros q []|apply N.le_refl|apply N.le_refl]|]. apply move_kept. apply below_refl. }
            assert (Out : forall c v, h_parent h c = Some v -> h_parent h v = Some n -> v <> tn -> ~ below h c tn).
            { intros c v0 Pcv Pvn Nv Y. destruct (N.eq_dec c tn) as [->|Ne]; [assert (v0 = n) by congruence; subst v0; exact (parent_neq n n Pvn eq_refl)|].
              apply (below_parent h c v0 tn Pcv) in Y; [|exact Ne]. exact (Nv (child_unique h Wf n v0 tn v0 Pvn Pt (below_refl v0) Y)). }
            destruct (IH k5) with (m := m5) (g := g4) (fr := fr5) (bk := tn) (bb := target) (x := a1) (y := a2) (rows := a3) (i := i') (o := o') (cs := cs' ++ rest) (path := path ++ [tn])
              as (k6 & fr6 & m6 & g6 & L6 & Ex6 & R6 & K6 & H6); try assumption.
            * lia.
            * lia.
            * apply (active_kept fr fr5 n); [congruence|exact Ac|]. intros d Nd. exact (k_env _ _ _ _ _ _ _ _ _ _ K5 d Nd).
            * rewrite Env5. rewrite (k_env _ _ _ _ _ _ _ _ _ _ K45); [exact En2|exact (Knot tn Pt)].
            * cbn. apply upd_same.
            * cbn. now rewrite N.eqb_refl.
            * apply stores_loads; [apply outs_nodup|exact Lc5].
            * intros d [Bdd Nd] Nd'. destruct (enter_env fr2 tn i' (cs' ++ rest) d Itl Bdd Nd') as [Y1 Y2]. split; [exact Y1|]. unfold fr5; cbn [move pc]. rewrite upd_other; [exact Y2|]. intros ->. exact (Knot tn Pt Bdd).
            * refine (ready_kept _ _ _ _ _ _ _ _ _ _ n K5 _ Rdy). intros q Nq. split; [exact Nq|intros p []].
            * exact (walk_end _ _ _ _ _ Wk Sib).
            * intros v0 Iv Nv c Pcv Oc. apply H45. apply in_app_iff in Iv. destruct Iv as [Iv|[->|[]]]; [|now destruct Nv].
              assert (Pvn : h_parent h v0 = Some n).
              { clear - Wk Iv Pe. revert Pe. induction Wk as [a|a e l c Ee X IHw]; intros Pe; [destruct Iv as [<-|[]]; exact Pe|]. destruct Iv as [<-|Iv]; [exact Pe|]. apply (IHw Iv). apply Ee. }
              refine (held_kept _ _ _ _ _ _ _ _ _ _ c K45 (Out c v0 Pcv Pvn Nv) (fun q => _) _); [intros []|].
              destruct (N.eq_dec v0 bk) as [->|Nb]; [exact (Held2 c Pcv Oc)|]. refine (held_kept _ _ _ _ _ _ _ _ _ _ c K2' _ (fun q => _) (Done v0 Iv Nb c Pcv Oc)); [|intros []].
              intros [Y _]. destruct (N.eq_dec c bk) as [->|Ne]; [assert (v0 = n) by congruence; subst v0; exact (parent_neq n n Pvn eq_refl)|].
              apply (below_parent h c v0 bk Pcv) in Y; [|exact Ne]. exact (Nb (child_unique h Wf n v0 bk v0 Pvn Pb (below_refl v0) Y)).
            * exists k6, fr6, m6, g6. split; [lia|]. split; [exact Ex6|]. split; [exact (reach_trans _ _ _ R2 (reach_trans _ _ _ S5 R6))|]. split; [|exact H6]. eapply kept_chain; [exact K5|exact K6].
          + assert (tn = exit) by (rewrite Kn in Snd; injection Snd as <-; reflexivity). subst tn. rewrite Bx in Btn. injection Btn as <- <-.
            rewrite Pend in Ex5. set (m5 := stores m2 rmx (cs' ++ rest)) in *.
            assert (Lm5 : loads m5 rmx = Some (cs' ++ rest)) by (apply stores_loads; assumption).
            destruct (exec_load Ex5 Lm5) as (k6 & -> & Ex6). destruct (exec_store Ex6 ltac:(apply upd_same)) as (k7 & vs & -> & Eg7 & Lv & Ex7). rewrite upd_same in Eg7. injection Eg7 as <-.
            assert (Fn5 : fits h n (cs' ++ rest)) by (unfold fits; rewrite Lv; now apply outs_length).
            exists k7, (move (put fr2 n (cs' ++ rest)) n None), (stores m5 (node_outs h n) (cs' ++ rest)), (upd g4 rgx (Some (cs' ++ rest))).
            split; [lia|]. split; [exact Ex7|]. split; [|split].
            * eapply reach_trans; [exact R2|]. apply reach_step. exact (s_exit _ _ _ _ n sg bk x y rows i o tg cs' rest rw exit j Wt On Pn2 Ob Gi Io2 Erw Lcr Ij Snd Fn5).
            * apply kept_chain with fr2 m2 g4; [eapply kept_mono; [exact K2'|intros d [Bdd _]; exact (Kbelow bk d Pb Bdd)|intros q []|apply N.le_refl|apply N.le_refl]|].
              apply kept_chain with (put fr2 n (cs' ++ rest)) m2 g4; [eapply kept_mono; [apply (put_kept _ n (cs' ++ rest) m2 _ (anon s) (regs s))|intros d ->; apply below_refl|intros q []|apply N.le_refl|apply N.le_refl]|].
              apply kept_chain with (move (put fr2 n (cs' ++ rest)) n None) m2 g4; [apply move_kept; apply below_refl|].
              apply kept_chain with (move (put fr2 n (cs' ++ rest)) n None) m5 g4; [apply stores_kept; intros q Iq; destruct (Arx q Iq) as (p & -> & Lp); right; exact Lp|].
              apply kept_chain with (move (put fr2 n (cs' ++ rest)) n None) (stores m5 (node_outs h n) (cs' ++ rest)) g4; [apply stores_kept; intros q Iq; apply outs_in in Iq; destruct Iq as (p & ->); right; apply below_refl|].
              apply regs_kept. lia.
            * apply (held_loads _ _ _ (cs' ++ rest) In_); [cbn; apply upd_same|]. apply stores_loads; [apply outs_nodup|exact Lv]. }
      (* the entry *)
      destruct (K2 _ _ _ (block_data_in _ _ _ Be)) as [(i & o & b1 & b2 & b3 & _ & Fat & Etr & _)|(r2 & O2 & _)]; [|congruence]. subst rmb.
      pose proof (fat_get_io h entry i o Fat) as Gi. pose proof (proj1 (kid_live h Wf entry n Pe)) as Ie. destruct (io_facts entry i o Ie Gi) as (Pi & Po & _).
      pose proof (proj1 (kid_live h Wf i entry Pi)) as Ni.
      rewrite <- (pos_same Fc s z1) in Ex; [|exact Cuz|rewrite Co1; injection B0 as _ <-; reflexivity].
      destruct (pos_write Ww Xz2) as [Ep Lw]. rewrite Ep in Ex. destruct (exec_store Ex (b_row _ _ _ _ _ _ _ B)) as (k1 & vs & -> & Eg & Lv & Ex1).
      rewrite (b_row _ _ _ _ _ _ _ B) in Eg. injection Eg as <-. rewrite (pos_append Fc _ _ Xz2') in Ex1. destruct (exec_br Ex1) as (k2 & -> & Ex2).
      assert (Fi : fits h i ins) by (unfold fits; rewrite Lv; now apply outs_length).
      assert (Fn : env fr n = None /\ pc fr n = None) by (apply (b_fresh _ _ _ _ _ _ _ B); apply below_refl).
      set (fr0 := enter h fr entry i ins). set (fr1 := move fr0 n (Some entry)). set (m1 := stores m (node_outs h i) ins) in *.
      assert (S1 : reach fr fr1).
      { apply reach_step. refine (s_cfg_in _ _ _ _ n sg entry i o ins (before_waiting _ _ _ _ _ _ _ B) On (proj2 Fn) _ Gi (b_inputs _ _ _ _ _ _ _ B) Fi). rewrite Kn. reflexivity. }
      assert (K01 : kept (fun d => below h d n) nothing (anon s) (regs s) fr fr1 m m1 g g).
      { apply kept_chain with fr0 m g; [eapply kept_mono; [apply (enter_kept fr entry i ins m g (anon s) (regs s) Ie (kid_below _ _ Pi))|intros d Bdd; exact (Kbelow entry d Pe Bdd)|intros q []|apply N.le_refl|apply N.le_refl]|].
        apply kept_chain with fr1 m g; [apply move_kept; apply below_refl|]. apply stores_kept. intros q Iq. apply outs_in in Iq. destruct Iq as (p & ->). right. apply (Kbelow entry i Pe). apply kid_below. exact Pi. }
      destruct (Loop k2 m1 g fr1 entry entry_bb ex eoo erows i o ins [entry]) as (k6 & fr6 & m6 & g6 & L6 & Ex6 & R6 & K6 & H6); try assumption.
      - lia.
      - exact (b_func _ _ _ _ _ _ _ B).
      - apply (active_kept fr fr1 n); [congruence|apply B|]. intros d Nd. exact (k_env _ _ _ _ _ _ _ _ _ _ K01 d Nd).
      - cbn. destruct (N.eqb_spec n i) as [->|_]; [exfalso; exact (Knot entry Pe (kid_below _ _ Pi))|]. destruct (memN n (descendants h entry)) eqn:Em; [reflexivity|apply Fn].
      - cbn. apply upd_same.
      - cbn. now rewrite N.eqb_refl.
      - apply stores_loads; [apply outs_nodup|exact Lv].
      - intros d [Bdd Nd] Nd'. destruct (enter_env fr entry i ins d Ie Bdd Nd') as [Y1 Y2]. split; [exact Y1|]. unfold fr1; cbn [move pc]. rewrite upd_other; [exact Y2|]. intros ->. exact (Knot entry Pe Bdd).
      - refine (ready_kept _ _ _ _ _ _ _ _ _ _ n K01 _ (b_ready _ _ _ _ _ _ _ B)). intros q Nq. split; [exact Nq|intros p []].
      - constructor.
      - intros v [<-|[]] Nv. now destruct Nv.
      - exists k6, fr6, m6, g6. split; [lia|]. split; [exact Ex6|]. split; [exact (reach_trans _ _ _ S1 R6)|]. split; [eapply kept_chain; [exact K01|exact K6]|exact H6].
    Qed.

    (** ** All operations *)
    Lemma optype_sim : forall Fc n a ins k s s' fr m g oc, ~ static_op (h_ops h n) -> emit_optype (content ctx) handled h rec n a (node_outs h n) s = Some s' ->
      before n a ins s fr m g -> ext Fc s' -> k <= b -> run Fc k (pos Fc s) m g oc -> node_done Fc n k s s' fr m g oc.
    Proof.
      intros Fc n a ins k s s' fr m g oc Ns X B Xe Lk Ex. pose proof (b_node _ _ _ _ _ _ _ B) as In_. pose proof (b_inv _ _ _ _ _ _ _ B) as I.
      pose proof (before_waiting _ _ _ _ _ _ _ B) as Wt. pose proof (b_inputs _ _ _ _ _ _ _ B) as Ii. pose proof (b_row _ _ _ _ _ _ _ B) as Ig.
      unfold emit_optype in X. destruct (h_ops h n) eqn:On; try discriminate; try (now destruct Ns).
      - (* call *)
        match type of X with context [p_params ?f] => destruct (p_params f); [|discriminate] end.
        destruct (function_at h n (in_count h n)) as [callee|] eqn:Fa; [|discriminate].
        refine (simple_sim Fc n _ _ s s' k fr m g oc In_ X I Xe Ex _). intros l Ex'.
        refine (call_sim Fc b _ (regs s) callee ins (length (node_outs h n)) n k l m g oc fr calls_fine Lk Wt _ _ Ex').
        + refine (c_direct _ _ _ _ _ _ _ _ On Ii _). unfold DeadModel.static_source. rewrite On. unfold function_at in Fa. destruct (single_linked_output h n (in_count h n)) as [[f0 q]|] eqn:Sl; [|discriminate].
          assert (callee = f0) by (destruct (h_ops h f0); try discriminate; destruct (p_params _); try discriminate; now injection Fa as <-). subst f0.
          unfold single_linked_output in Sl. unfold in_count in Sl. rewrite On in Sl. cbn [static_port static_port_kind].
          match goal with |- option_map fst (hd_error ?x) = _ => idtac end.
          destruct (linked_outputs h n _) as [|e [|e' r]]; try discriminate. injection Sl as ->. reflexivity.
        + cbn [call_of]. rewrite Ig. reflexivity.
      - (* indirect call *)
        destruct (Nat.eqb (r_len a) 0); [discriminate|]. refine (simple_sim Fc n _ _ s s' k fr m g oc In_ X I Xe Ex _). intros l Ex'.
        assert (Co : exists f vs, ins = CFun f tt :: vs).
        { assert (C : call_of (ICallPtr (regs s) (r_reg a) (length (node_outs h n)) : instr E) g <> None) by (inversion Ex'; subst; cbn [reads] in *; congruence).
          cbn [call_of] in C. rewrite Ig in C. destruct ins as [|c vs]; [now destruct C|]. destruct c as [w|f []|t0 cs]; try (now destruct C). eauto. }
        destruct Co as (f & vs & ->).
        refine (call_sim Fc b _ (regs s) f vs (length (node_outs h n)) n k l m g oc fr calls_fine Lk Wt (c_indirect _ _ _ _ _ _ On Ii) _ Ex').
        cbn [call_of]. rewrite Ig. reflexivity.
      - (* load constant *)
        destruct (single_linked_output h n 0) as [[c q]|] eqn:Sl; [|discriminate]. destruct (h_ops h c) eqn:Oc; try discriminate.
        match type of X with context [emit_value ?v] => destruct (emit_value v) as [y|] eqn:Ev; [|discriminate] end.
        refine (simple_sim Fc n _ _ s s' k fr m g oc In_ X I Xe Ex _). intros l Ex'. destruct (exec_const Ex') as (k1 & -> & Ex1). rewrite (constant_value _ _ Ev) in Ex1.
        eexists k1, _. split; [lia|]. split; [exact Ex1|]. intros Fn. apply reach_step. refine (s_leaf _ _ _ _ n ins _ Wt Ii _ Fn). refine (l_const _ _ _ n ins _ (c, q) _ _ _ On Sl Oc).
      - (* load function *)
        match type of X with context [p_params ?f] => destruct (p_params f); [|discriminate] end.
        destruct (function_at h n 0) as [callee|] eqn:Fa; [|discriminate].
        refine (simple_sim Fc n _ _ s s' k fr m g oc In_ X I Xe Ex _). intros l Ex'. destruct (exec_func Ex') as (k1 & -> & Ex1).
        eexists k1, _. split; [lia|]. split; [exact Ex1|]. intros Fn. apply reach_step. refine (s_leaf _ _ _ _ n ins _ Wt Ii _ Fn).
        unfold function_at in Fa. destruct (single_linked_output h n 0) as [[f0 q]|] eqn:Sl; [|discriminate].
        assert (callee = f0) by (destruct (h_ops h f0); try discriminate; destruct (p_params _); try discriminate; now injection Fa as <-). subst f0.
        refine (l_func _ _ _ n ins _ _ _ (callee, q) On Sl).
      - (* DFG *) exact (dfg_sim Fc n _ a ins k s s' fr m g oc On X B Xe Lk Ex).
      - (* extension operation *)
        destruct (handled n); [|discriminate]. refine (simple_sim Fc n _ _ s s' k fr m g oc In_ X I Xe Ex _). intros l Ex'.
        destruct (exec_ext Ex' Ig) as (k1 & ins' & outs & -> & Eg & Ro & Ex1). rewrite Ig in Eg. injection Eg as <-.
        exists k1, outs. split; [lia|]. split; [exact Ex1|]. intros Fn. apply reach_step. refine (s_leaf _ _ _ _ n ins _ Wt Ii _ Fn). exact (Ops n _ _ _ _ ins outs On Ro).
      - (* tag *)
        refine (simple_sim Fc n _ _ s s' k fr m g oc In_ X I Xe Ex _). intros l Ex'. destruct (exec_tag Ex' Ig) as (k1 & ins' & -> & Eg & Ex1). rewrite Ig in Eg. injection Eg as <-.
        eexists k1, _. split; [lia|]. split; [exact Ex1|]. intros Fn. apply reach_step. refine (s_leaf _ _ _ _ n ins _ Wt Ii _ Fn). refine (l_tag _ _ _ n ins _ _ On).
      - exact (loop_sim Fc n _ _ _ a ins k s s' fr m g oc On X B Xe Lk Ex).
      - exact (cfg_sim Fc n _ a ins k s s' fr m g oc On X B Xe Lk Ex).
      - exact (conditional_sim Fc n _ _ _ a ins k s s' fr m g oc On X B Xe Lk Ex).
    Qed.

    (** ** The nodes of a region *)
    Lemma nodes_sim : forall Fc p rins routs i o ins ps (ex : ptr -> Prop) a0 ord, In p (h_nodes h) -> region (h_ops h p) rins routs -> get_io h p = Some (i, o) ->
      NoDup ord -> (forall n, In n ord <-> h_parent h n = Some p) -> (forall D n R, ord = D ++ n :: R -> forall s, sibling_edge h p s n -> In s D) ->
      fits h i ins -> (forall d q, ex (Wire d q) -> d = p) -> promise p o ps a0 ex ->
      forall l D insopt outsopt s s' k fr m g oc, ord = D ++ l -> emit_nodes (content ctx) handled h rec insopt outsopt l s = Some s' -> inv s -> ext Fc s' -> k <= b ->
        run Fc k (pos Fc s) m g oc -> func_start fr -> env fr i = Some ins -> (a0 <= anon s)%N ->
        (forall a, insopt = Some a -> g (r_reg a) = Some ins /\ (r_reg a < regs s)%N) ->
        (outsopt = Some ps /\ ~ In o D \/ outsopt = None /\ In o D /\ (node_ins h o = Some ps \/ exists outs, inputs h fr o outs /\ loads m ps = Some outs)) ->
        (forall c, In c D -> 0 < out_count h c -> held fr m c) ->
        (forall c, In c l -> c <> i -> forall d, below h d c -> env fr d = None /\ pc fr d = None) ->
        ready fr m p ->
        exists k' fr' m' g' outs, k' <= k /\ run Fc k' (pos Fc s') m' g' oc /\ reach fr fr' /\
          kept (fun d => strict d p) ex (anon s) (regs s) fr fr' m m' g g' /\ env fr' i = Some ins /\
          inputs h fr' o outs /\ loads m' ps = Some outs /\ forall c, h_parent h c = Some p -> 0 < out_count h c -> held fr' m' c.
    Proof.
      intros Fc p rins routs i o ins ps ex a0 ord Ip Rg Gi Nd Mem Ord Fi Exp Pro.
      destruct (io_facts p i o Ip Gi) as (Pi & Po & Fa & Nio & _ & _ & _ & _ & _).
      destruct (region_io _ _ h Wf Va p rins routs Ip Rg) as (i_ & o_ & Gi' & _ & Oi & Oo & _ & _ & Only). rewrite Gi in Gi'. injection Gi' as <- <-.
      induction l as [|c l IH]; intros D insopt outsopt s s' k fr m g oc Eord X I Xe Lk Ex Fs Ei La Hin Hout Held Fresh Rdy; cbn [emit_nodes] in X.
      - injection X as <-. assert (Io : In o D) by (rewrite app_nil_r in Eord; subst D; now apply Mem).
        assert (Outs : exists outs, inputs h fr o outs /\ loads m ps = Some outs).
        { destruct Hout as [[_ Nd']|(_ & _ & [No|Y])]; [contradiction| |exact Y].
          destruct (read_inputs fr m o ps (proj1 (kid_live h Wf o p Po)) Fs) as (vs & L1 & L2); [|exact No|eauto].
          intros j s0 q U. pose proof (source_outside _ _ h Wf Va o j s0 q U) as So.
          destruct (source_in_region _ _ h Wf Va p rins routs o o j s0 q Rg Po (below_refl o) U So) as [Y|(Y & _)].
          - exact (Rdy o j s0 q (kid_below o p Po) U Y).
          - apply Held; [rewrite app_nil_r in Eord; subst D; now apply Mem|]. destruct (uses_facts _ _ h Wf Va _ _ _ _ U) as (_ & _ & Lq & _). lia. }
        destruct Outs as (outs & A1 & A2). exists k, fr, m, g, outs. split; [lia|]. split; [exact Ex|]. split; [apply reach_refl|]. split; [apply kept_refl|]. repeat (split; [assumption|]).
        intros c Pc Lc. apply Held; [|exact Lc]. rewrite app_nil_r in Eord. subst D. now apply Mem.
      - assert (Pc : h_parent h c = Some p) by (apply Mem; rewrite Eord; apply in_elt).
        pose proof (proj1 (kid_live h Wf c p Pc)) as Ic.
        assert (NcD : ~ In c D /\ ~ In c l).
        { rewrite Eord in Nd. apply NoDup_remove in Nd. destruct Nd as [_ Nc]. rewrite in_app_iff in Nc. tauto. }
        destruct NcD as [NcD Ncl].
        assert (Apart : forall c' d, h_parent h c' = Some p -> c' <> c -> below h d c' -> ~ below h d c).
        { intros c' d Pc' Nc B1 B2. exact (Nc (child_unique h Wf p c' c d Pc' Pc B1 B2)). }
        assert (Src : forall d j s0 q, below h d c -> uses h d j s0 q -> ~ below h s0 c -> held fr m s0).
        { intros d j s0 q Bd U Ns. destruct (source_in_region _ _ h Wf Va p rins routs c d j s0 q Rg Pc Bd U Ns) as [Y|Y].
          - exact (Rdy d j s0 q (below_up h c p d Pc Bd) U Y).
          - apply Held; [exact (Ord D c l Eord s0 Y)|]. destruct (uses_facts _ _ h Wf Va _ _ _ _ U) as (_ & _ & Lq & _). lia. }
        destruct (node_ins h c) as [pc_|] eqn:Ni; [|discriminate].
        destruct (read_inputs fr m c pc_ Ic Fs) as (vs & Lvs & Ivs); [|exact Ni|].
        { intros j s0 q U. exact (Src c j s0 q (below_refl c) U (source_outside _ _ h Wf Va c j s0 q U)). }
        destruct (read pc_ s) as [rv s1] eqn:Rd. rewrite read_compute in Rd. destruct (compute_grows _ _ _ _ _ I Rd) as (G1 & Ev & Lr & Cu1 & An1 & _).
        (* after the node *)
        assert (Step : forall insopt' outsopt' s2 k2 fr2 m2 g2, emit_nodes (content ctx) handled h rec insopt' outsopt' l s2 = Some s' -> grows s s2 -> k2 <= k ->
          run Fc k2 (pos Fc s2) m2 g2 oc -> reach fr fr2 -> kept (fun d => below h d c) (fun x => c = o /\ ex x) (anon s) (regs s) fr fr2 m m2 g g2 ->
          env fr2 i = Some ins -> (0 < out_count h c -> held fr2 m2 c) -> (insopt' = insopt \/ insopt' = None) ->
          (outsopt' = outsopt /\ c <> o \/ c = o /\ outsopt' = None /\ (node_ins h o = Some ps \/ exists outs, inputs h fr2 o outs /\ loads m2 ps = Some outs)) ->
          exists k' fr' m' g' outs, k' <= k /\ run Fc k' (pos Fc s') m' g' oc /\ reach fr fr' /\
            kept (fun d => strict d p) ex (anon s) (regs s) fr fr' m m' g g' /\ env fr' i = Some ins /\
            inputs h fr' o outs /\ loads m' ps = Some outs /\ forall c, h_parent h c = Some p -> 0 < out_count h c -> held fr' m' c).
        { intros insopt' outsopt' s2 k2 fr2 m2 g2 X2 G2 Lk2 Ex2 R2 K2 Ei2 Hc Hin2 Hout2.
          pose proof (c_anon _ _ (proj1 G2)) as La2. pose proof (c_regs _ _ (proj1 G2)) as Lr2.
          destruct (IH (D ++ [c]) insopt' outsopt' s2 s' k2 fr2 m2 g2 oc) as (k3 & fr3 & m3 & g3 & outs & A1 & A2 & A3 & A4 & A5 & A6 & A7 & A8); try assumption.
          - now rewrite <- app_assoc.
          - apply (c_inv _ _ (proj1 G2)).
          - lia.
          - exact (func_kept _ _ (k_start _ _ _ _ _ _ _ _ _ _ K2) Fs).
          - lia.
          - intros a Ea. destruct Hin2 as [->| ->]; [|discriminate]. destruct (Hin a Ea) as [Y1 Y2]. split; [|lia]. rewrite (k_regs _ _ _ _ _ _ _ _ _ _ K2); assumption.
          - destruct Hout2 as [[-> Nco]|(-> & -> & Y)]; [|right; split; [reflexivity|]; split; [apply in_elt|exact Y]].
            destruct Hout as [[Ho Nd']|(Ho & Io & Y)]; [left; split; [exact Ho|]; rewrite in_app_iff; intros [Z|[Z|[]]]; [exact (Nd' Z)|exact (Nco Z)]|].
            right. split; [exact Ho|]. split; [apply in_app_iff; now left|]. destruct Pro as [No|(N1 & N2 & N3)]; [now left|]. destruct Y as [Y|(outs & Y1 & Y2)]; [now left|right].
            exists outs. split.
            + refine (inputs_kept _ _ _ _ _ _ _ _ _ _ o outs K2 Fs _ Y1). intros j s0 q U Bs. pose proof (source_outside _ _ h Wf Va o j s0 q U) as So.
              destruct (source_in_region _ _ h Wf Va p rins routs o o j s0 q Rg Po (below_refl o) U So) as [Z|Z]; [exact (Z (below_up h c p s0 Pc Bs))|].
              assert (Ez : s0 = c) by (apply (child_unique h Wf p s0 c s0 (proj1 Z) Pc (below_refl s0) Bs)). subst s0.
              apply in_split in Io. destruct Io as (D1 & D2 & Ed). assert (Hc' : In c D1) by (apply (Ord D1 o (D2 ++ c :: l)); [rewrite Eord, Ed, <- app_assoc; reflexivity|exact Z]).
              apply NcD. rewrite Ed. apply in_app_iff. now left.
            + rewrite <- Y2. apply each_some_ext. intros x Ix. apply (k_mem _ _ _ _ _ _ _ _ _ _ K2).
              intros [[Eco _]|Y]; [subst c; contradiction|]. specialize (N2 x Ix). destruct x as [d q|j]; [subst d; exact (proj2 (strict_below c p p Pc Y) eq_refl)|lia].
          - intros c' Ic' Lc'. apply in_app_iff in Ic'. destruct Ic' as [Ic'|[<-|[]]]; [|exact (Hc Lc')].
            assert (Pc' : h_parent h c' = Some p) by (apply Mem; rewrite Eord; apply in_app_iff; now left).
            refine (held_kept _ _ _ _ _ _ _ _ _ _ c' K2 _ _ (Held c' Ic' Lc')); [apply (Apart c' c' Pc'); [intros ->; contradiction|apply below_refl]|].
            intros q [_ Y]. apply Exp in Y. exact (parent_neq c' p Pc' Y).
          - intros c' Ic' Nci d Bd. assert (Pc' : h_parent h c' = Some p) by (apply Mem; rewrite Eord; apply in_app_iff; right; now right).
            assert (Ncc : c' <> c) by (intros ->; contradiction). rewrite (k_env _ _ _ _ _ _ _ _ _ _ K2), (k_pc _ _ _ _ _ _ _ _ _ _ K2); [|exact (Apart c' d Pc' Ncc Bd)|exact (Apart c' d Pc' Ncc Bd)].
            apply (Fresh c'); [now right|exact Nci|exact Bd].
          - refine (ready_kept _ _ _ _ _ _ _ _ _ _ p K2 _ Rdy). intros s0 Ns. split; [intros Y; exact (Ns (below_up h c p s0 Pc Y))|]. intros q [_ Y]. apply Exp in Y. subst s0. exact (Ns (below_refl p)).
          - exists k3, fr3, m3, g3, outs. split; [lia|]. split; [exact A2|]. split; [exact (reach_trans _ _ _ R2 A3)|]. split; [|repeat (split; [assumption|]); exact A8].
            eapply kept_trans; [exact K2|exact A4|intros d Bd; exact (strict_below c p d Pc Bd)|auto| | |lia|lia].
            + intros x [[_ Y]|Y]; [now left|right]. destruct x; [exact (strict_below c p _ Pc Y)|exact Y].
            + intros x [Y|Y]; [now left|right]. destruct x; [exact Y|lia]. }
        set (g1 := upd g (regs s) (Some vs)).
        assert (K1 : kept (fun d => below h d c) nothing (anon s) (regs s) fr fr m m g g1) by (apply regs_kept; lia).
        assert (Lift : forall fr2 m2 g2, kept (fun d => below h d c) nothing (anon s) (regs s) fr fr2 m m2 g g2 -> kept (fun d => below h d c) (fun x => c = o /\ ex x) (anon s) (regs s) fr fr2 m m2 g g2).
        { intros fr2 m2 g2 K. eapply kept_mono; [exact K|auto|intros x []|apply N.le_refl|apply N.le_refl]. }
        assert (Kind : (c = i /\ exists a s2, insopt = Some a /\ write (node_outs h c) a s1 = Some s2 /\ emit_nodes (content ctx) handled h rec None outsopt l s2 = Some s') \/
          (c = o /\ exists ps' s2, outsopt = Some ps' /\ write ps' rv s1 = Some s2 /\ emit_nodes (content ctx) handled h rec insopt None l s2 = Some s') \/
          (~ boundary (h_ops h c) /\ exists s2, emit_optype (content ctx) handled h rec c rv (node_outs h c) s1 = Some s2 /\ emit_nodes (content ctx) handled h rec insopt outsopt l s2 = Some s')).
        { destruct (Only c Pc) as [->|[->|Nb]].
          - left. split; [reflexivity|]. rewrite Oi in X. destruct insopt as [a|]; [|discriminate]. destruct (write (node_outs h i) a s1) as [s2|] eqn:Ww; [|discriminate]. eauto 6.
          - right. left. split; [reflexivity|]. rewrite Oo in X. destruct outsopt as [a|]; [|discriminate]. destruct (write a rv s1) as [s2|] eqn:Ww; [|discriminate]. eauto 6.
          - right. right. split; [exact Nb|]. destruct (emit_optype (content ctx) handled h rec c rv (node_outs h c) s1) as [s2|] eqn:Em.
            + exists s2. split; [reflexivity|]. destruct (h_ops h c); try exact X; now destruct Nb.
            + exfalso. destruct (h_ops h c); try discriminate; now apply Nb. }
        assert (Run1 : ext Fc s1 -> exists k1, k = S k1 /\ run Fc k1 (pos Fc s1) m g1 oc).
        { intros X1. rewrite (pos_compute Rd X1) in Ex. exact (exec_load Ex Lvs). }
        destruct Kind as [(-> & a & s2 & -> & Ww & X2)|[(-> & ps' & s2 & Eo & Ww & X2)|(Nb & s2 & Em & X2)]].
        + (* input *)
          pose proof (write_grows _ _ _ _ (c_inv _ _ (proj1 G1)) Ww) as G2. pose proof (nodes_grows (content ctx) handled h rec rec_grows _ _ _ _ _ (c_inv _ _ (proj1 G2)) X2) as G3.
          pose proof (grows_ext G3 Xe) as Xs2. pose proof (grows_ext G2 Xs2) as Xs1. destruct (Run1 Xs1) as (k1 & -> & Ex1).
          destruct (pos_write Ww Xs2) as [Ep _]. rewrite Ep in Ex1. destruct (Hin a eq_refl) as [Ha1 Ha2]. destruct (exec_store Ex1 ltac:(unfold g1; rewrite upd_other by lia; exact Ha1)) as (k2 & vs' & -> & Eg & Lv & Ex2).
          unfold g1 in Eg. rewrite upd_other in Eg by lia. rewrite Ha1 in Eg. injection Eg as <-.
          apply (Step None outsopt s2 k2 fr (stores m (node_outs h i) ins) g1 X2 (grows_trans _ _ _ G1 G2)); try assumption.
          * lia.
          * apply reach_refl.
          * apply Lift. eapply kept_chain; [exact K1|]. apply stores_kept. intros x Ix. apply outs_in in Ix. destruct Ix as (q & ->). right. apply below_refl.
          * intros _. apply (held_loads _ _ _ ins Ic Ei). apply stores_loads; [apply outs_nodup|exact Lv].
          * now right.
          * left. split; [reflexivity|exact Nio].
        + (* output *)
          pose proof (write_grows _ _ _ _ (c_inv _ _ (proj1 G1)) Ww) as G2. pose proof (nodes_grows (content ctx) handled h rec rec_grows _ _ _ _ _ (c_inv _ _ (proj1 G2)) X2) as G3.
          pose proof (grows_ext G3 Xe) as Xs2. pose proof (grows_ext G2 Xs2) as Xs1. destruct (Run1 Xs1) as (k1 & -> & Ex1).
          destruct (pos_write Ww Xs2) as [Ep _]. rewrite Ep in Ex1. destruct (exec_store Ex1 ltac:(rewrite Ev; unfold g1; apply upd_same)) as (k2 & vs' & -> & Eg & Lv & Ex2).
          rewrite Ev in Eg. cbn [r_reg] in Eg. unfold g1 in Eg. rewrite upd_same in Eg. injection Eg as <-.
          assert (ps' = ps) by (destruct Hout as [[Y _]|[Y _]]; congruence). subst ps'.
          assert (Oz : 0 < out_count h o -> False) by (unfold out_count; rewrite Oo; cbn; lia).
          apply (Step insopt None s2 k2 fr (stores m ps vs) g1 X2 (grows_trans _ _ _ G1 G2)); try assumption.
          * lia.
          * apply reach_refl.
          * destruct Pro as [No|(N1 & N2 & N3)].
            -- apply Lift. rewrite Ni in No. injection No as ->. pose proof (stores_back ps vs m Lvs) as Sb. constructor; try reflexivity; [intros x _; apply Sb|]. intros x Lx. apply upd_other. lia.
            -- apply kept_chain with fr m g1; [exact (Lift _ _ _ K1)|]. apply stores_kept. intros x Ix. left. split; [reflexivity|exact (N3 x Ix)].
          * intros Y. destruct (Oz Y).
          * now left.
          * right. split; [reflexivity|]. split; [reflexivity|]. destruct Pro as [No|(N1 & N2 & N3)]; [now left|right]. exists vs. split; [exact Ivs|]. now apply stores_loads.
        + (* the others *)
          assert (Nci : c <> i) by (intros ->; apply Nb; rewrite Oi; exact Logic.I). assert (Nco : c <> o) by (intros ->; apply Nb; rewrite Oo; exact Logic.I).
          pose proof (optype_grows (content ctx) handled h rec rec_grows _ _ _ _ _ (c_inv _ _ (proj1 G1)) Em) as G2. pose proof (nodes_grows (content ctx) handled h rec rec_grows _ _ _ _ _ (c_inv _ _ (proj1 G2)) X2) as G3.
          pose proof (grows_ext G3 Xe) as Xs2. pose proof (grows_ext G2 Xs2) as Xs1. destruct (Run1 Xs1) as (k1 & -> & Ex1).
          assert (Sd : static_op (h_ops h c) \/ ~ static_op (h_ops h c)) by (destruct (h_ops h c); cbn; tauto).
          destruct Sd as [Sd|Sd].
          * assert (s2 = s1) by (unfold emit_optype in Em; destruct (h_ops h c); try (now destruct Sd); now injection Em as <-). subst s2.
            apply (Step insopt outsopt s1 k1 fr m g1 X2 G1); try assumption.
            -- lia.
            -- apply reach_refl.
            -- exact (Lift _ _ _ K1).
            -- intros Y. exfalso. unfold out_count in Y. destruct (h_ops h c); try (now destruct Sd); cbn in Y; lia.
            -- now left.
            -- left. split; [reflexivity|exact Nco].
          * assert (Bf : before c rv vs s1 fr m g1).
            { constructor.
              - exact Ic.
              - exact Fs.
              - exists p, i, o, ins. split; [rewrite (get_parent_eq h Wf); exact Pc|]. split; [exact Gi|exact Ei].
              - intros d Bd. apply (Fresh c); [now left|exact Nci|exact Bd].
              - intros d j s0 q Bd U Ns. exact (Src d j s0 q Bd U Ns).
              - exact Ivs.
              - rewrite Ev. cbn [r_reg]. unfold g1. apply upd_same.
              - rewrite Ev. cbn [r_reg]. exact Lr.
              - apply (c_inv _ _ (proj1 G1)). }
            destruct (optype_sim Fc c rv vs k1 s1 s2 fr m g1 oc Sd Em Bf Xs2) as (k2 & fr2 & m2 & g2 & Lk2 & Ex2 & R2 & K2 & H2); [lia|exact Ex1|].
            pose proof (c_anon _ _ (proj1 G1)) as La1. pose proof (c_regs _ _ (proj1 G1)) as Lr1.
            assert (Nic : ~ below h i c) by (intros Y; apply Nci; exact (child_unique h Wf p c i i Pc Pi Y (below_refl i))).
            apply (Step insopt outsopt s2 k2 fr2 m2 g2 X2 (grows_trans _ _ _ G1 G2)); try assumption.
            -- lia.
            -- apply Lift. eapply kept_chain; [exact K1|]. eapply kept_mono; [exact K2|auto|intros x []|lia|lia].
            -- rewrite (k_env _ _ _ _ _ _ _ _ _ _ K2); assumption.
            -- intros _. exact H2.
            -- now left.
            -- left. split; [reflexivity|exact Nco].
    Qed.

    Lemma children_ok : region_ok b (emit_children (content ctx) handled h rec).
    Proof.
      intros Fc p a ps i o ins ex k s s' fr m g oc X I Xe Lk Ex Ip Gi Fs Ei Fi Ga La Fresh Rdy Pro.
      destruct (io_facts p i o Ip Gi) as (Pi & Po & Fa & Nio & rins & routs & Rg & _).
      unfold emit_children in X. rewrite Fa in X. destruct (order_spec _ _ h Wf Va p rins routs Ip Rg) as (l & El & Nl & Ml & Ol). rewrite El in X.
      assert (Pro' : exists ex', promise p o ps (anon s) ex' /\ (forall d q, ex' (Wire d q) -> d = p) /\ forall x, ex' x -> ex x).
      { destruct Pro as [No|(N1 & N2 & N3)].
        - exists nothing. split; [left; exact No|]. split; [intros d q []|intros x []].
        - exists (fun x => In x ps). split; [right; auto|]. split; [intros d q Y; exact (N2 _ Y)|exact N3]. }
      destruct Pro' as (ex' & Pr1 & Pr2 & Pr3).
      destruct (nodes_sim Fc p rins routs i o ins ps ex' (anon s) (rev l) Ip Rg Gi Nl Ml Ol Fi Pr2 Pr1 (rev l) [] (Some a) (Some ps) s s' k fr m g oc) as
        (k' & fr' & m' & g' & outs & A1 & A2 & A3 & A4 & A5 & A6 & A7 & A8); try assumption; try reflexivity.
      - intros a' Ea. injection Ea as <-. auto.
      - left. split; [reflexivity|intros []].
      - intros c [].
      - intros c Ic Nci d Bd. apply Ml in Ic. apply Fresh; [exact (strict_below c p d Ic Bd)|]. intros ->. apply Nci. exact (child_unique h Wf p c i i Ic Pi Bd (below_refl i)).
      - exists k', fr', m', g', outs. repeat (split; [assumption|]). split; [|repeat (split; [assumption|]); exact A8].
        eapply kept_mono; [exact A4|auto|intros x Y; left; exact (Pr3 x Y)|apply N.le_refl|apply N.le_refl].
    Qed.
  End Rec.

  Lemma parent_ok : forall b, calls_ok b -> forall fuel, region_ok b (emit_dataflow_parent (content ctx) handled h fuel).
  Proof.
    intros b Ok. induction fuel as [|fuel IH]; [intros Fc p a ps i o ins ex k s s' fr m g oc X; discriminate|]. cbn [emit_dataflow_parent].
    apply children_ok; [|exact IH|exact Ok]. intros p a ps s s' I X. exact (parent_grows (content ctx) handled h fuel p a ps s s' I X).
  Qed.

  (** ** Functions *)
  Theorem functions_ok : forall b, calls_ok b.
  Proof.
    induction b as [|b IH]; intros k f fn ins oc Lk Df Lp Ex; [lia|].
    unfold emitted, emit_func in Df. destruct (h_ops h f) as [|nm sg pub| | | | | | | | | | | | | | | | | | | |] eqn:Of; try discriminate. destruct (p_params sg); [|discriminate].
    destruct (new_row_mail_box (length (p_outs sg)) new_context) as [ret s0] eqn:R0.
    assert (I : inv (@new_context E)) by (split; [reflexivity|reflexivity]).
    destruct (new_row_grows _ _ _ _ I R0) as (G0 & Cu0 & Erm & An0 & Rg0).
    destruct (emit_dataflow_parent _ handled h _ f _ ret s0) as [s1|] eqn:Em; [|discriminate].
    destruct (read ret s1) as [vs s2] eqn:Rd. injection Df as <-. cbn [f_params f_code] in *.
    pose proof (parent_grows (content ctx) handled h _ _ _ _ _ _ (c_inv _ _ (proj1 G0)) Em) as G1.
    rewrite read_compute in Rd. destruct (compute_grows _ _ _ _ _ (c_inv _ _ (proj1 G1)) Rd) as (G2 & Ev & Lr & Cu2 & An2 & Co2).
    set (s3 := append (IRet (r_reg vs)) s2) in *. set (s4 := append (IBr 1) (position 0 s3)) in *. set (Fc := code s4) in *.
    pose proof (append_grows (IRet (r_reg vs)) s2 (c_inv _ _ (proj1 G2))) as G3. fold s3 in G3.
    pose proof (grows_trans _ _ _ G0 (grows_trans _ _ _ G1 (grows_trans _ _ _ G2 G3))) as G.
    assert (C0 : code s3 0%N = []).
    { rewrite (c_old _ _ (proj1 G)); [reflexivity|reflexivity|discriminate]. }
    assert (F0 : Fc 0%N = [IBr 1]) by (unfold Fc, s4; cbn [append code cur position]; rewrite upd_same, C0; reflexivity).
    assert (F1 : Fc 1%N = code s3 1%N) by (unfold Fc, s4; cbn [append code cur position]; apply upd_other; discriminate).
    assert (Xs3 : ext Fc s3).
    { intros q. unfold Fc, s4. cbn [append code cur position]. destruct (N.eq_dec q 0) as [->|Nq]; [rewrite upd_same; eauto|]. rewrite upd_other by congruence. exists []. now rewrite app_nil_r. }
    pose proof (grows_ext G3 Xs3) as Xs2. pose proof (grows_ext G2 Xs2) as Xs1. pose proof (grows_ext G1 Xs1) as Xs0.
    change (run Fc k (Fc 0%N) no_mem (with_params ins) oc) in Ex. rewrite F0 in Ex. destruct (exec_br Ex) as (k1 & -> & Ex1).
    assert (If : In f (h_nodes h)).
    { destruct (length (h_nodes h)) as [|fuel]; [discriminate|]. cbn [emit_dataflow_parent] in Em. unfold emit_children in Em. destruct (fat_io h f) as [[i0 o0]|] eqn:Fa; [|discriminate].
      pose proof (fat_get_io h f i0 o0 Fa) as Gi. unfold get_io in Gi. destruct (flow_parent (h_ops h f)); [|discriminate]. destruct (h_kids h f) as [|c1 r] eqn:Kf; [discriminate|].
      assert (Pc : h_parent h c1 = Some f) by (apply (wf_kids h Wf); rewrite Kf; now left). exact (proj2 (kid_live h Wf c1 f Pc)). }
    assert (Rg : region (h_ops h f) (p_ins sg) (p_outs sg)) by (rewrite Of; constructor).
    destruct (region_io _ _ h Wf Va f _ _ If Rg) as (i & o & Gi & _ & Oi & Oo & Pi & Po & _).
    assert (Fi : fits h i ins) by (unfold fits, out_count; rewrite Oi; exact Lp).
    assert (P0 : pos Fc s0 = Fc 1%N) by (unfold pos; rewrite Cu0; injection R0 as _ <-; reflexivity).
    rewrite <- P0 in Ex1.
    assert (Pe : NoDup ret /\ forall x, In x ret -> exists q, x = Anon q /\ (q < anon s0)%N).
    { pose proof (from_facts (length (p_outs sg)) (anon (@new_context E))) as (Fl & Fn & Ff). rewrite Erm. split; [apply FinFun.Injective_map_NoDup; [intros x y Q; now injection Q|exact Fn]|].
      intros x Ix. apply in_map_iff in Ix. destruct Ix as (q & <- & Iq). exists q. apply Ff in Iq. split; [reflexivity|]. rewrite An0. lia. }
    destruct Pe as [Nr Ar].
    destruct (parent_ok b IH _ Fc f _ ret i o ins (fun x => In x ret) k1 s0 s1 (new_frame f i ins) no_mem (with_params ins) oc Em (c_inv _ _ (proj1 G0)) Xs1) as
      (k2 & fr2 & m2 & g2 & outs & Lk2 & Ex2 & R2 & K2 & Ei2 & Io2 & Lo2 & _); try assumption.
    - lia.
    - exists nm, sg, pub. exact Of.
    - cbn. now rewrite N.eqb_refl.
    - reflexivity.
    - cbn [r_reg]. rewrite Rg0. reflexivity.
    - intros d _ Nd. cbn. destruct (N.eqb_spec d i); [contradiction|]. auto.
    - intros d j s' q Bd U Ns. exfalso. apply Ns. exact (source_function _ _ h Wf Va f nm sg pub d j s' q Of Bd U).
    - right. split; [exact Nr|]. split; [|auto]. intros x Ix. destruct (Ar x Ix) as (q & -> & Lq). exact Lq.
    - rewrite (pos_compute Rd Xs2) in Ex2. destruct (exec_load Ex2 Lo2) as (k3 & -> & Ex3). rewrite (pos_append Fc _ _ Xs3) in Ex3.
      destruct (exec_ret Ex3 ltac:(rewrite Ev; apply upd_same)) as (vs' & Eg & ->). rewrite Ev in Eg. cbn [r_reg] in Eg. rewrite upd_same in Eg. injection Eg as <-.
      exists outs, i, o, fr2. split; [reflexivity|]. split; [exact Gi|]. split; [exact Fi|]. split; [exact (k_start _ _ _ _ _ _ _ _ _ _ K2)|]. split; [exact Io2|exact R2].
  Qed.
End Sim.
