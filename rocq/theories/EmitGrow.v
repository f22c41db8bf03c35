(** Emission only adds code: at the end of the current block, and in new blocks. *)
From Coq Require Import List Bool NArith Arith Lia.
From Verif Require Import TypesModel GraphModel GraphProofs OpModel DeadModel InlineModel ReplaceModel ValidModel FlowModel EmitModel.
Import ListNotations.
Open Scope N_scope.

Section Grow.
  Context {E : Type}.
  Notation st := (st E).
  Notation instr := (instr E).

  Definition inv (s : st) : Prop := (forall b, blocks s <= b -> code s b = []) /\ cur s < blocks s.

  Record core (s s' : st) : Prop := {
    c_inv : inv s';
    c_code : forall b, exists t, code s' b = code s b ++ t;
    c_old : forall b, b < blocks s -> b <> cur s -> code s' b = code s b;
    c_blocks : blocks s <= blocks s';
    c_regs : regs s <= regs s';
    c_anon : anon s <= anon s' }.
  Definition grows (s s' : st) : Prop := core s s' /\ (cur s' = cur s \/ blocks s <= cur s').

  Lemma grows_refl s : inv s -> grows s s.
  Proof.
    intros I. split; [|now left]. constructor; try lia; [exact I|intros b; exists []; now rewrite app_nil_r|reflexivity].
  Qed.

  Lemma grows_core a b c : grows a b -> core b c -> core a c.
  Proof.
    intros [A Ca] B. constructor.
    - apply (c_inv _ _ B).
    - intros x. destruct (c_code _ _ A x) as (t & Et). destruct (c_code _ _ B x) as (u & Eu). exists (t ++ u). now rewrite Eu, Et, app_assoc.
    - intros x Lx Nx. rewrite (c_old _ _ B); [apply (c_old _ _ A); assumption| |].
      + pose proof (c_blocks _ _ A). lia.
      + destruct Ca as [->|]; [exact Nx|lia].
    - pose proof (c_blocks _ _ A). pose proof (c_blocks _ _ B). lia.
    - pose proof (c_regs _ _ A). pose proof (c_regs _ _ B). lia.
    - pose proof (c_anon _ _ A). pose proof (c_anon _ _ B). lia.
  Qed.

  Lemma grows_trans a b c : grows a b -> grows b c -> grows a c.
  Proof.
    intros A [B Cb]. split; [exact (grows_core a b c A B)|]. destruct A as [A Ca]. pose proof (c_blocks _ _ A).
    destruct Cb as [->|]; [exact Ca|right; lia].
  Qed.

  Lemma append_grows i s : inv s -> grows s (append i s).
  Proof.
    intros [I L]. split; [|now left]. constructor; try (cbn; lia).
    - split; [|exact L]. intros b Lb. cbn in *. unfold upd. destruct (N.eqb_spec b (cur s)) as [->|_]; [lia|apply I; exact Lb].
    - intros b. cbn. unfold upd. destruct (N.eqb_spec b (cur s)) as [->|_]; [now exists [i]|exists []; now rewrite app_nil_r].
    - intros b _ Nb. cbn. now apply upd_other.
  Qed.

  Lemma new_block_grows s b s' : inv s -> new_block s = (b, s') -> grows s s' /\ b = blocks s /\ code s' b = [] /\ b < blocks s' /\ cur s' = cur s.
  Proof.
    intros [I L] X. injection X as <- <-. split; [|cbn; repeat split; try lia; apply I; lia].
    split; [|now left]. constructor; cbn; try lia.
    - split; cbn; [|lia]. intros b Lb. apply I. lia.
    - intros b. exists []. now rewrite app_nil_r.
    - reflexivity.
  Qed.

  Lemma same_grows (s s' : st) : inv s -> code s' = code s -> cur s' = cur s -> blocks s' = blocks s -> regs s <= regs s' -> anon s <= anon s' -> grows s s'.
  Proof.
    intros [I L] Ec Eu Eb Lr La. split; [|now left]. constructor; try lia.
    - split; [rewrite Ec, Eb; exact I|lia].
    - intros b. exists []. now rewrite Ec, app_nil_r.
    - intros b _ _. now rewrite Ec.
  Qed.

  Lemma new_row_grows n s ps s' : inv s -> new_row_mail_box n s = (ps, s') -> grows s s' /\ cur s' = cur s /\ ps = map Anon (from (anon s) n) /\
    anon s' = anon s + N.of_nat n /\ regs s' = regs s.
  Proof. intros I X. injection X as <- <-. split; [apply same_grows; cbn; auto; lia|]. cbn. auto. Qed.

  Lemma compute_grows i n s v s' : inv s -> compute i n s = (v, s') ->
    grows s s' /\ v = {| r_reg := regs s; r_len := n |} /\ regs s < regs s' /\ cur s' = cur s /\ anon s' = anon s /\ code s' (cur s) = code s (cur s) ++ [i (regs s)].
  Proof.
    intros I X. unfold compute in X. cbn in X. injection X as <- <-. split.
    - eapply grows_trans; [|apply append_grows].
      + apply same_grows; cbn; auto; lia.
      + split; [apply (proj1 I)|apply (proj2 I)].
    - cbn. split; [reflexivity|]. split; [lia|]. split; [reflexivity|]. split; [reflexivity|]. apply upd_same.
  Qed.

  Lemma read_compute ps (s : st) : read ps s = compute (fun r => ILoad r ps) (length ps) s.
  Proof. reflexivity. Qed.

  Lemma write_inv ps a (s s' : st) : write ps a s = Some s' -> length ps = r_len a /\ s' = append (IStore ps (r_reg a)) s.
  Proof. unfold write. destruct (Nat.eqb_spec (length ps) (r_len a)) as [L|]; [|discriminate]. intros X. injection X as <-. auto. Qed.

  Lemma write_grows ps a s s' : inv s -> write ps a s = Some s' -> grows s s'.
  Proof. intros I X. apply write_inv in X. destruct X as [_ ->]. now apply append_grows. Qed.

  Lemma position_inv b s : inv s -> b < blocks s -> inv (position b s).
  Proof. intros [I _] L. split; [exact I|exact L]. Qed.

  (** Code in a new block. *)
  Lemma grows_at s0 s s' b c : grows s0 s -> blocks s0 <= b -> b < blocks s -> core (position b s) s' ->
    c = cur s0 \/ blocks s0 <= c -> c < blocks s' -> grows s0 (position c s').
  Proof.
    intros [A Ca] Lb Lb' B Lc Lc'. split; [|exact Lc].
    constructor.
    - apply position_inv; [apply (c_inv _ _ B)|exact Lc'].
    - intros x. destruct (c_code _ _ A x) as (t & Et). destruct (c_code _ _ B x) as (u & Eu). exists (t ++ u). cbn in *. now rewrite Eu, Et, app_assoc.
    - intros x Lx Nx. cbn. rewrite (c_old _ _ B); cbn.
      + now apply (c_old _ _ A).
      + pose proof (c_blocks _ _ A). lia.
      + lia.
    - pose proof (c_blocks _ _ A). pose proof (c_blocks _ _ B) as X. cbn in *. lia.
    - pose proof (c_regs _ _ A). pose proof (c_regs _ _ B) as X. cbn in *. lia.
    - pose proof (c_anon _ _ A). pose proof (c_anon _ _ B) as X. cbn in *. lia.
  Qed.

  Lemma positioned_inv {X} b (f : st -> option (X * st)) s x s' : build_positioned b f s = Some (x, s') ->
    exists s1, f (position b s) = Some (x, s1) /\ s' = position (cur s) s1.
  Proof. unfold build_positioned. destruct (f (position b s)) as [[y s1]|]; [|discriminate]. intros Q. injection Q as <- <-. eauto. Qed.

  (** [build_positioned] at a block that is new or not. *)
  Lemma positioned_core b s s1 : inv s -> b < blocks s -> core (position b s) s1 ->
    core (position b s) (position (cur s) s1) /\ cur s < blocks s1.
  Proof.
    intros I L C. assert (Lc : cur s < blocks s1) by (pose proof (c_blocks _ _ C) as X; cbn in X; destruct I; lia).
    split; [|exact Lc]. destruct C. constructor; cbn in *; auto. now apply position_inv.
  Qed.

  (** ** Destructuring *)
  Lemma destructure_grows (handler : nat -> row -> st -> option st) a : (forall k vs s s', inv s -> handler k vs s = Some s' -> core s s') ->
    forall lens k s bbs s', inv s -> destructure_cases handler a k lens s = Some (bbs, s') ->
      core s s' /\ (forall b, b < blocks s -> code s' b = code s b) /\ length bbs = length lens /\
      forall j len, nth_error lens j = Some len -> exists bb s1 s2 r,
        nth_error bbs j = Some bb /\ blocks s <= bb /\ cur s1 = bb /\ inv s1 /\ regs s <= r /\ r < regs s1 /\ anon s <= anon s1 /\ core s1 s2 /\ core s2 (position (cur s2) s') /\
        code s1 bb = [IFields r (k + j) len (r_reg a)] /\ handler (k + j)%nat {| r_reg := r; r_len := len + (r_len a - 1) |} s1 = Some s2.
  Proof.
    intros H. induction lens as [|len lens IH]; intros k s bbs s' I X; cbn [destructure_cases] in X.
    - injection X as <- <-. split; [apply (grows_refl s I)|]. split; [reflexivity|]. split; [reflexivity|]. intros [|j] len; discriminate.
    - destruct (new_block s) as [bb s0] eqn:B. destruct (new_block_grows s bb s0 I B) as (G0 & Eb & Cb & Lb & Cu0).
      destruct (compute (fun r => IFields r k len (r_reg a)) (len + (r_len a - 1)) (position bb s0)) as [v s1] eqn:C.
      pose proof (position_inv bb s0 (c_inv _ _ (proj1 G0)) Lb) as I0.
      destruct (compute_grows _ _ _ _ _ I0 C) as (G1 & Ev & Lr & Cu1 & Ea & Co1). cbn [position cur regs anon code] in Lr, Cu1, Ea, Co1.
      destruct (handler k v s1) as [s2|] eqn:Hh; [|discriminate].
      destruct (destructure_cases handler a (S k) lens s2) as [[bbs' s3]|] eqn:D; [|discriminate]. injection X as <- <-.
      pose proof (H _ _ _ _ (c_inv _ _ (proj1 G1)) Hh) as C2. pose proof (c_inv _ _ C2) as I2.
      destruct (IH (S k) s2 bbs' s3 I2 D) as (C3 & Old3 & Len3 & Each).
      assert (Old2 : forall b, b < blocks s -> code s2 b = code s b).
      { intros b L. rewrite (c_old _ _ C2).
        - rewrite (c_old _ _ (proj1 G1)); cbn; [|pose proof (c_blocks _ _ (proj1 G0)); lia|lia]. injection B as <- <-. reflexivity.
        - pose proof (c_blocks _ _ (proj1 G1)) as X1. pose proof (c_blocks _ _ (proj1 G0)). cbn in X1. lia.
        - rewrite Cu1. lia. }
      assert (Old : forall b, b < blocks s -> code s3 b = code s b).
      { intros b L. rewrite Old3; [now apply Old2|]. pose proof (c_blocks _ _ C2). pose proof (c_blocks _ _ (proj1 G1)) as X1. pose proof (c_blocks _ _ (proj1 G0)). cbn in X1. lia. }
      assert (Cs : core s s3).
      { constructor.
        - apply (c_inv _ _ C3).
        - intros b. destruct (N.lt_ge_cases b (blocks s)) as [L|L]; [exists []; rewrite app_nil_r; now apply Old|]. destruct I as [I _]. rewrite (I b L). eexists. reflexivity.
        - intros b L _. now apply Old.
        - pose proof (c_blocks _ _ C3). pose proof (c_blocks _ _ C2). pose proof (c_blocks _ _ (proj1 G1)) as X1. pose proof (c_blocks _ _ (proj1 G0)). cbn in X1. lia.
        - pose proof (c_regs _ _ C3). pose proof (c_regs _ _ C2). pose proof (c_regs _ _ (proj1 G1)) as X1. pose proof (c_regs _ _ (proj1 G0)). cbn in X1. lia.
        - pose proof (c_anon _ _ C3). pose proof (c_anon _ _ C2). pose proof (c_anon _ _ (proj1 G1)) as X1. pose proof (c_anon _ _ (proj1 G0)). cbn in X1. lia. }
      split; [exact Cs|]. split; [exact Old|]. split; [cbn; now rewrite Len3|].
      intros [|j] ln Ej; cbn [nth_error] in Ej.
      + injection Ej as <-. exists bb, s1, s2, (regs s0). rewrite Nat.add_0_r. split; [reflexivity|]. split; [lia|]. split; [exact Cu1|].
        split; [apply (c_inv _ _ (proj1 G1))|]. split; [apply (c_regs _ _ (proj1 G0))|]. split; [exact Lr|]. split; [rewrite Ea; apply (c_anon _ _ (proj1 G0))|].
        split; [exact C2|]. split.
        * destruct C3. constructor; cbn; auto. apply position_inv; [assumption|]. destruct I2. lia.
        * split; [rewrite Co1, Cb; reflexivity|]. rewrite <- Hh, Ev. reflexivity.
      + destruct (Each j ln Ej) as (bb' & t1 & t2 & r & A1 & A2 & A3 & A4 & A5 & A6 & A7 & A8 & A9 & A10 & A11).
        exists bb', t1, t2, r. replace (k + S j)%nat with (S k + j)%nat by lia.
        pose proof (c_blocks _ _ C2). pose proof (c_blocks _ _ (proj1 G1)) as X1. pose proof (c_blocks _ _ (proj1 G0)). cbn in X1.
        pose proof (c_regs _ _ C2). pose proof (c_regs _ _ (proj1 G1)) as Y1. pose proof (c_regs _ _ (proj1 G0)). cbn in Y1.
        pose proof (c_anon _ _ C2). pose proof (c_anon _ _ (proj1 G1)) as Z1. pose proof (c_anon _ _ (proj1 G0)). cbn in Z1.
        repeat (split; [first [assumption|lia]|]). assumption.
  Qed.

  Lemma destructure_inv (handler : nat -> row -> st -> option st) a lens s s' : build_destructure handler a lens s = Some s' ->
    r_len a <> 0%nat /\ exists bb bbs s1, destructure_cases handler a 0 lens s = Some (bb :: bbs, s1) /\
      s' = append (ISwitch (r_reg a) bb (combine (seq 1 (length bbs)) bbs)) (position (cur s) s1).
  Proof.
    unfold build_destructure. destruct (Nat.eqb_spec (r_len a) 0); [discriminate|]. intros X. split; [assumption|].
    destruct (destructure_cases handler a 0 lens s) as [[[|bb bbs] s1]|]; try discriminate. injection X as <-. eauto.
  Qed.

  Lemma build_destructure_grows (handler : nat -> row -> st -> option st) a lens s s' : (forall k vs s s', inv s -> handler k vs s = Some s' -> core s s') ->
    inv s -> build_destructure handler a lens s = Some s' -> grows s s' /\ cur s' = cur s.
  Proof.
    intros H I X. apply destructure_inv in X. destruct X as (_ & bb & bbs & s1 & D & ->).
    destruct (destructure_grows handler a H lens 0 s _ _ I D) as (C & _).
    assert (G : grows s (position (cur s) s1)).
    { split; [|now left]. destruct C. constructor; auto. apply position_inv; [assumption|]. destruct I. lia. }
    split; [|reflexivity]. eapply grows_trans; [exact G|]. apply append_grows. apply (c_inv _ _ (proj1 G)).
  Qed.

  Lemma write_br_core ps b (vs : row) (s s' : st) : inv s -> option_map (append (IBr b)) (write ps vs s) = Some s' -> core s s'.
  Proof.
    intros I X. destruct (write ps vs s) as [s1|] eqn:Ww; [|discriminate]. injection X as <-.
    pose proof (write_grows _ _ _ _ I Ww) as G. apply (grows_core s s1); [exact G|]. apply append_grows. apply (c_inv _ _ (proj1 G)).
  Qed.
End Grow.

Section Emit.
  Context {E F M : Type}.
  Notation st := (st E).
  Variable content : N -> value E F.
  Variable handled : N -> bool.
  Variable h : hugr op M.

  Section Rec.
    Variable rec : N -> row -> list ptr -> st -> option st.
    Hypothesis rec_grows : forall p a ps s s', inv s -> rec p a ps s = Some s' -> grows s s'.

    Lemma cases_grows : forall exit_bb exit_rmb kids s l s', inv s -> emit_cases h rec exit_bb exit_rmb kids s = Some (l, s') ->
      grows s s' /\ cur s' = cur s /\ (forall b, b < blocks s -> code s' b = code s b).
    Proof.
      intros exit_bb exit_rmb. induction kids as [|c kids IH]; intros s l s' I X; cbn [emit_cases] in X.
      - injection X as <- <-. split; [now apply grows_refl|]. auto.
      - destruct (h_ops h c); try discriminate. destruct (fat_io h c) as [[i o]|]; [|discriminate].
        destruct (new_row_mail_box (out_count h i) s) as [rmb z0] eqn:R0. destruct (new_row_grows _ _ _ _ I R0) as (G0 & Cu0 & _ & _ & _).
        destruct (new_block z0) as [bb z1] eqn:B1. destruct (new_block_grows _ _ _ (c_inv _ _ (proj1 G0)) B1) as (G1 & Eb & Cb & Lb & Cu1).
        destruct (build_positioned bb _ z1) as [[u z2]|] eqn:P; [|discriminate].
        destruct (emit_cases h rec exit_bb exit_rmb kids z2) as [[l' z3]|] eqn:D; [|discriminate]. injection X as <- <-.
        apply positioned_inv in P. destruct P as (t & P & ->).
        destruct (read rmb (position bb z1)) as [v t0] eqn:Rd. rewrite read_compute in Rd.
        pose proof (position_inv bb z1 (c_inv _ _ (proj1 G1)) Lb) as Ip.
        destruct (compute_grows _ _ _ _ _ Ip Rd) as (G2 & _ & _ & Cu2 & _).
        destruct (rec c v exit_rmb t0) as [t1|] eqn:Rc; [|discriminate]. injection P as _ <-.
        pose proof (rec_grows _ _ _ _ _ (c_inv _ _ (proj1 G2)) Rc) as G3.
        assert (G4 : grows (position bb z1) (append (IBr exit_bb) t1)).
        { eapply grows_trans; [exact G2|]. eapply grows_trans; [exact G3|]. apply append_grows. apply (c_inv _ _ (proj1 G3)). }
        pose proof (grows_trans _ _ _ G0 G1) as G01.
        assert (L0 : blocks s <= bb) by (pose proof (c_blocks _ _ (proj1 G0)); lia).
        assert (Lc : cur s < blocks (append (IBr exit_bb) t1)).
        { pose proof (c_blocks _ _ (proj1 G4)) as X1. pose proof (c_blocks _ _ (proj1 G01)). destruct I. cbn in *. lia. }
        pose proof (grows_at _ _ _ bb (cur s) G01 L0 Lb (proj1 G4) (or_introl eq_refl) Lc) as G5.
        replace (cur z1) with (cur s) in * by congruence.
        destruct (IH _ _ _ (c_inv _ _ (proj1 G5)) D) as (G6 & Cu6 & Old6). split; [eapply grows_trans; eassumption|]. split; [exact Cu6|].
        intros b L. rewrite Old6.
        + cbn [position code]. rewrite (c_old _ _ (proj1 G4)); cbn [position code blocks cur].
          * injection R0 as <- <-. injection B1 as <- <-. reflexivity.
          * pose proof (c_blocks _ _ (proj1 G01)). lia.
          * lia.
        + pose proof (c_blocks _ _ (proj1 G5)). lia.
    Qed.

    Lemma conditional_grows : forall rows n ins outs s s', inv s -> emit_conditional h rec rows n ins outs s = Some s' -> grows s s'.
    Proof.
      intros rows n ins outs s s' I X. unfold emit_conditional in X.
      destruct (new_row_mail_box (out_count h n) s) as [rmb z0] eqn:R0. destruct (new_row_grows _ _ _ _ I R0) as (G0 & Cu0 & _ & _ & _).
      destruct (new_block z0) as [bb z1] eqn:B1. destruct (new_block_grows _ _ _ (c_inv _ _ (proj1 G0)) B1) as (G1 & Eb & Cb & Lb & Cu1).
      destruct (build_positioned bb _ z1) as [[u z2]|] eqn:P; [|discriminate].
      apply positioned_inv in P. destruct P as (t & P & ->).
      destruct (read rmb (position bb z1)) as [v t0] eqn:Rd. rewrite read_compute in Rd.
      pose proof (position_inv bb z1 (c_inv _ _ (proj1 G1)) Lb) as Ip.
      destruct (compute_grows _ _ _ _ _ Ip Rd) as (G2 & _ & _ & Cu2 & _).
      destruct (write outs v t0) as [t1|] eqn:Ww; [|discriminate]. injection P as _ <-.
      pose proof (write_grows _ _ _ _ (c_inv _ _ (proj1 G2)) Ww) as G3.
      pose proof (grows_trans _ _ _ G0 G1) as G01. pose proof (grows_trans _ _ _ G2 G3) as G23.
      assert (L0 : blocks s <= bb) by (pose proof (c_blocks _ _ (proj1 G0)); lia).
      assert (Lc : cur s < blocks t1).
      { pose proof (c_blocks _ _ (proj1 G23)) as X1. pose proof (c_blocks _ _ (proj1 G01)). destruct I. cbn in *. lia. }
      pose proof (grows_at _ _ _ bb (cur s) G01 L0 Lb (proj1 G23) (or_introl eq_refl) Lc) as G5.
      replace (cur z1) with (cur s) in * by congruence.
      destruct (emit_cases h rec bb rmb (h_kids h n) (position (cur s) t1)) as [[cases z3]|] eqn:Ec; [|discriminate].
      destruct (cases_grows _ _ _ _ _ _ (c_inv _ _ (proj1 G5)) Ec) as (G6 & Cu6 & _).
      destruct (build_destructure _ ins (map (@length ty) rows) z3) as [z4|] eqn:D; [|discriminate]. injection X as <-.
      apply build_destructure_grows in D; [|intros k vs a a' Ia Q; destruct (nth_error cases k) as [[rm b']|]; [|discriminate]; apply (write_br_core _ _ _ _ _ Ia Q)|apply (c_inv _ _ (proj1 G6))].
      destruct D as [G7 Cu7]. pose proof (grows_trans _ _ _ G5 (grows_trans _ _ _ G6 G7)) as G.
      split; [|right; cbn; lia]. destruct (proj1 G). constructor; auto. apply position_inv; [assumption|].
      pose proof (c_blocks _ _ (proj1 G6)). pose proof (c_blocks _ _ (proj1 G7)). pose proof (c_blocks _ _ (proj1 G23)) as X1. cbn in *. lia.
    Qed.

    Lemma tail_loop_grows : forall ji jo n ins outs s s', inv s -> emit_tail_loop h rec ji jo n ins outs s = Some s' -> grows s s'.
    Proof.
      intros ji jo n ins outs s s' I X. unfold emit_tail_loop in X.
      destruct (new_block s) as [out_bb z0] eqn:B0. destruct (new_block_grows _ _ _ I B0) as (G0 & Eb0 & Cb0 & Lb0 & Cu0).
      destruct (new_block z0) as [body_bb z1] eqn:B1. destruct (new_block_grows _ _ _ (c_inv _ _ (proj1 G0)) B1) as (G1 & Eb1 & Cb1 & Lb1 & Cu1).
      destruct (fat_io h n) as [[i o]|]; [|discriminate]. destruct (node_ins h o) as [body_o|]; [|discriminate].
      destruct (write (node_outs h i) ins z1) as [z2|] eqn:Ww; [|discriminate].
      pose proof (write_grows _ _ _ _ (c_inv _ _ (proj1 G1)) Ww) as G2.
      destruct (build_positioned body_bb _ (append (IBr body_bb) z2)) as [[u z3]|] eqn:P; [|discriminate]. injection X as <-.
      apply positioned_inv in P. destruct P as (t & P & ->).
      set (z2' := append (IBr body_bb) z2) in *.
      assert (G3 : grows z2 z2') by (apply append_grows; apply (c_inv _ _ (proj1 G2))).
      pose proof (grows_trans _ _ _ G0 (grows_trans _ _ _ G1 (grows_trans _ _ _ G2 G3))) as G.
      assert (Lb : body_bb < blocks z2') by (pose proof (c_blocks _ _ (proj1 G2)); pose proof (c_blocks _ _ (proj1 G3)); lia).
      destruct (read (node_outs h i) (position body_bb z2')) as [v t0] eqn:Rd. rewrite read_compute in Rd.
      pose proof (position_inv body_bb z2' (c_inv _ _ (proj1 G3)) Lb) as Ip.
      destruct (compute_grows _ _ _ _ _ Ip Rd) as (H1 & _).
      destruct (rec n v body_o t0) as [t1|] eqn:Rc; [|discriminate].
      pose proof (rec_grows _ _ _ _ _ (c_inv _ _ (proj1 H1)) Rc) as H2.
      destruct (read body_o t1) as [res t2] eqn:Rd2. rewrite read_compute in Rd2.
      destruct (compute_grows _ _ _ _ _ (c_inv _ _ (proj1 H2)) Rd2) as (H3 & _).
      destruct (build_destructure _ res _ t2) as [t3|] eqn:D; [|discriminate]. injection P as _ <-.
      apply build_destructure_grows in D; [|intros k vs a a' Ia Q; destruct (Nat.eqb k 0); apply (write_br_core _ _ _ _ _ Ia Q)|apply (c_inv _ _ (proj1 H3))].
      destruct D as [H4 _]. pose proof (grows_trans _ _ _ H1 (grows_trans _ _ _ H2 (grows_trans _ _ _ H3 H4))) as H.
      assert (Lo : out_bb < blocks t3).
      { pose proof (c_blocks _ _ (proj1 H)) as X1. pose proof (c_blocks _ _ (proj1 G1)). pose proof (c_blocks _ _ (proj1 G2)). pose proof (c_blocks _ _ (proj1 G3)). cbn in *. lia. }
      refine (grows_at _ _ _ body_bb out_bb G _ Lb (proj1 H) _ Lo).
      - pose proof (c_blocks _ _ (proj1 G0)). lia.
      - right. lia.
    Qed.

    Lemma cfg_blocks_grows : forall n exit_bb kids (s : st) l s', inv s -> cfg_blocks h n exit_bb kids s = Some (l, s') ->
      grows s s' /\ cur s' = cur s /\ code s' = code s /\ regs s' = regs s /\
      (forall c bb rmb, In (c, (bb, rmb)) l -> (bb = exit_bb /\ exists r, h_ops h c = OExit r) \/ (blocks s <= bb < blocks s')).
    Proof.
      intros n exit_bb. induction kids as [|c kids IH]; intros s l s' I X; cbn [cfg_blocks] in X.
      - injection X as <- <-. split; [now apply grows_refl|]. repeat (split; [reflexivity|]). intros ? ? ? [].
      - destruct (h_ops h c) eqn:Oc; try (destruct (IH s l s' I X) as (A1 & A2 & A3 & A4 & A5); repeat (split; [assumption|]); intros c' bb' rm' Ic; exact (A5 c' bb' rm' Ic)).
        + destruct (new_block s) as [bb z0] eqn:B0. destruct (new_block_grows _ _ _ I B0) as (G0 & Eb0 & Cb0 & Lb0 & Cu0).
          destruct (fat_io h c) as [[i' o']|]; [|discriminate]. destruct (cfg_blocks h n exit_bb kids z0) as [[l' z1]|] eqn:D; [|discriminate]. injection X as <- <-.
          destruct (IH _ _ _ (c_inv _ _ (proj1 G0)) D) as (G1 & Cu1 & Co1 & Re1 & A5). split; [eapply grows_trans; eassumption|]. split; [congruence|].
          split; [rewrite Co1; injection B0 as _ <-; reflexivity|]. split; [rewrite Re1; injection B0 as _ <-; reflexivity|].
          intros c' bb' rm' [Ic|Ic].
          * injection Ic as <- <- <-. right. pose proof (c_blocks _ _ (proj1 G1)). lia.
          * destruct (A5 _ _ _ Ic) as [Y|Y]; [now left|right]. pose proof (c_blocks _ _ (proj1 G0)). lia.
        + destruct (new_row_mail_box (out_count h n) s) as [rmb z0] eqn:R0. destruct (new_row_grows _ _ _ _ I R0) as (G0 & Cu0 & _ & _ & Re0).
          destruct (cfg_blocks h n exit_bb kids z0) as [[l' z1]|] eqn:D; [|discriminate]. injection X as <- <-.
          destruct (IH _ _ _ (c_inv _ _ (proj1 G0)) D) as (G1 & Cu1 & Co1 & Re1 & A5). split; [eapply grows_trans; eassumption|]. split; [congruence|].
          split; [rewrite Co1; injection R0 as _ <-; reflexivity|]. split; [congruence|].
          intros c' bb' rm' [Ic|Ic].
          * injection Ic as <- <- <-. left. eauto.
          * destruct (A5 _ _ _ Ic) as [Y|Y]; [now left|right]. pose proof (c_blocks _ _ (proj1 G0)). injection R0 as _ <-. cbn in *. lia.
    Qed.

    Lemma block_data_in : forall bbs n x, block_data bbs n = Some x -> In (n, x) bbs.
    Proof.
      intros bbs n x X. unfold block_data in X. destruct (find _ bbs) as [[m y]|] eqn:Fi; [|discriminate]. injection X as <-.
      apply find_some in Fi. destruct Fi as [I B]. cbn in B. apply N.eqb_eq in B. now subst.
    Qed.

    (** What is done for the children of a control flow graph: code in their blocks only. *)
    Definition in_blocks (s s' : st) (bbs : list (N * (N * list ptr))) : Prop :=
      inv s' /\ cur s' = cur s /\ blocks s <= blocks s' /\ regs s <= regs s' /\ anon s <= anon s' /\
      (forall b, exists t, code s' b = code s b ++ t) /\
      forall b, b < blocks s -> (forall c rmb, ~ In (c, (b, rmb)) bbs) -> code s' b = code s b.

    Lemma in_blocks_refl s bbs : inv s -> in_blocks s s bbs.
    Proof. intros I. split; [exact I|]. repeat (split; [lia || reflexivity|]). split; [|reflexivity]. intros b. exists []. now rewrite app_nil_r. Qed.
    Lemma in_blocks_trans a b c bbs : in_blocks a b bbs -> in_blocks b c bbs -> in_blocks a c bbs.
    Proof.
      intros (A0 & A1 & A2 & A3 & A4 & A5 & A6) (B0 & B1 & B2 & B3 & B4 & B5 & B6). split; [exact B0|]. split; [congruence|].
      repeat (split; [lia|]). split.
      - intros x. destruct (A5 x) as (t & Et). destruct (B5 x) as (u & Eu). exists (t ++ u). now rewrite Eu, Et, app_assoc.
      - intros x L Nx. rewrite B6; [now apply A6|lia|exact Nx].
    Qed.
    Lemma in_blocks_at c bb rmb bbs s z1 : inv s -> In (c, (bb, rmb)) bbs -> bb < blocks s -> core (position bb s) z1 ->
      in_blocks s (position (cur s) z1) bbs.
    Proof.
      intros I Ic L C. destruct (positioned_core bb s z1 I L C) as [C' Lc]. destruct C'. cbn [position code blocks regs anon cur] in *.
      split; [assumption|]. split; [reflexivity|]. split; [cbn; assumption|]. split; [cbn; assumption|]. split; [cbn; assumption|]. split; [assumption|].
      intros b Lb Nb. cbn. apply c_old0; [exact Lb|]. intros ->. exact (Nb _ _ Ic).
    Qed.

    Definition fits_in (bbs : list (N * (N * list ptr))) (s : st) : Prop := forall c bb rmb, In (c, (bb, rmb)) bbs -> bb < blocks s.

    Lemma block_grows : forall bbs b rows s s', inv s -> fits_in bbs s -> emit_block h rec bbs b rows s = Some s' ->
      exists bb rmb z1, block_data bbs b = Some (bb, rmb) /\ grows (position bb s) z1 /\ s' = position (cur s) z1.
    Proof.
      intros bbs b rows s s' I Fb X. unfold emit_block in X. destruct (block_data bbs b) as [[bb rmb]|] eqn:Bd; [|discriminate].
      destruct (each_some (block_data bbs) (successors h b)) as [succ|]; [|discriminate].
      destruct (build_positioned bb _ s) as [[u z2]|] eqn:P; [|discriminate]. cbn in X. injection X as <-.
      apply positioned_inv in P. destruct P as (t & P & ->). exists bb, rmb, t. split; [reflexivity|]. split; [|reflexivity].
      pose proof (Fb _ _ _ (block_data_in _ _ _ Bd)) as Lb. pose proof (position_inv bb s I Lb) as Ip.
      destruct (fat_io h b) as [[i o]|]; [|discriminate]. destruct (node_ins h o) as [outs_rmb|]; [|discriminate].
      destruct (read rmb (position bb s)) as [v t0] eqn:Rd. rewrite read_compute in Rd. destruct (compute_grows _ _ _ _ _ Ip Rd) as (H1 & _).
      destruct (rec b v outs_rmb t0) as [t1|] eqn:Rc; [|discriminate]. pose proof (rec_grows _ _ _ _ _ (c_inv _ _ (proj1 H1)) Rc) as H2.
      destruct (read outs_rmb t1) as [res t2] eqn:Rd2. rewrite read_compute in Rd2. destruct (compute_grows _ _ _ _ _ (c_inv _ _ (proj1 H2)) Rd2) as (H3 & _).
      destruct (build_destructure _ res _ t2) as [t3|] eqn:D; [|discriminate]. injection P as _ <-.
      apply build_destructure_grows in D; [|intros k vs a a' Ia Q; destruct (nth_error succ k) as [[rm b']|]; [|discriminate]; apply (write_br_core _ _ _ _ _ Ia Q)|apply (c_inv _ _ (proj1 H3))].
      destruct D as [H4 _]. exact (grows_trans _ _ _ H1 (grows_trans _ _ _ H2 (grows_trans _ _ _ H3 H4))).
    Qed.

    Lemma exit_grows : forall bbs c outs (s s' : st), inv s -> fits_in bbs s -> emit_exit bbs c outs s = Some s' ->
      exists bb rmb z1, block_data bbs c = Some (bb, rmb) /\ grows (position bb s) z1 /\ s' = position (cur s) z1 /\
        length rmb = length outs /\ code z1 bb = code s bb ++ [ILoad (regs s) rmb; IStore outs (regs s)] /\ cur z1 = bb.
    Proof.
      intros bbs c outs s s' I Fb X. unfold emit_exit in X. destruct (block_data bbs c) as [[bb rmb]|] eqn:Bd; [|discriminate].
      destruct (build_positioned bb _ s) as [[u z2]|] eqn:P; [|discriminate]. cbn in X. injection X as <-.
      apply positioned_inv in P. destruct P as (t & P & ->). exists bb, rmb, t. split; [reflexivity|].
      pose proof (Fb _ _ _ (block_data_in _ _ _ Bd)) as Lb. pose proof (position_inv bb s I Lb) as Ip.
      destruct (read rmb (position bb s)) as [v t0] eqn:Rd. rewrite read_compute in Rd. destruct (compute_grows _ _ _ _ _ Ip Rd) as (H1 & Ev & _ & Cu & _ & Co).
      destruct (write outs v t0) as [t1|] eqn:Ww; [|discriminate]. injection P as _ <-.
      pose proof (write_grows _ _ _ _ (c_inv _ _ (proj1 H1)) Ww) as H2. split; [exact (grows_trans _ _ _ H1 H2)|]. split; [reflexivity|].
      apply write_inv in Ww. destruct Ww as [Lw ->]. subst v. cbn [r_len r_reg] in *. cbn [position cur code regs] in *. split; [congruence|].
      split; [|exact Cu]. cbn [append code]. rewrite Cu, upd_same, Co, <- app_assoc. reflexivity.
    Qed.

    Lemma cfg_kids_grows : forall bbs kids outs s s', inv s -> fits_in bbs s -> emit_cfg_kids h rec bbs outs kids s = Some s' -> in_blocks s s' bbs.
    Proof.
      intros bbs. induction kids as [|c kids IH]; intros outs s s' I Fb X; cbn [emit_cfg_kids] in X.
      - injection X as <-. now apply in_blocks_refl.
      - assert (Step : forall z1, in_blocks s z1 bbs -> inv z1 /\ fits_in bbs z1).
        { intros z1 (A0 & _ & A2 & _). split; [exact A0|]. intros c' bb' rm' Ic. specialize (Fb c' bb' rm' Ic). lia. }
        destruct (h_ops h c); try discriminate; try (exact (IH _ _ _ I Fb X)).
        + match type of X with context [emit_block h rec bbs c ?rows s] => destruct (emit_block h rec bbs c rows s) as [z1|] eqn:D; [|discriminate] end.
          destruct (block_grows bbs c _ s z1 I Fb D) as (bb & rmb & t & Bd & G & ->). pose proof (block_data_in _ _ _ Bd) as Ic.
          pose proof (in_blocks_at c bb rmb bbs s t I Ic (Fb _ _ _ Ic) (proj1 G)) as S1. destruct (Step _ S1) as [I1 Fb1].
          exact (in_blocks_trans _ _ _ _ S1 (IH _ _ _ I1 Fb1 X)).
        + destruct outs as [ps|]; [|discriminate]. destruct (emit_exit bbs c ps s) as [z1|] eqn:D; [|discriminate].
          destruct (exit_grows bbs c ps s z1 I Fb D) as (bb & rmb & t & Bd & G & -> & _). pose proof (block_data_in _ _ _ Bd) as Ic.
          pose proof (in_blocks_at c bb rmb bbs s t I Ic (Fb _ _ _ Ic) (proj1 G)) as S1. destruct (Step _ S1) as [I1 Fb1].
          exact (in_blocks_trans _ _ _ _ S1 (IH _ _ _ I1 Fb1 X)).
    Qed.

    Lemma cfg_grows : forall n ins outs s s', inv s -> emit_cfg h rec n ins outs s = Some s' -> grows s s'.
    Proof.
      intros n ins outs s s' I X. unfold emit_cfg in X.
      destruct (new_block s) as [exit_bb z0] eqn:B0. destruct (new_block_grows _ _ _ I B0) as (G0 & Eb0 & Cb0 & Lb0 & Cu0).
      destruct (cfg_blocks h n exit_bb (h_kids h n) z0) as [[bbs z1]|] eqn:Bs; [|discriminate].
      destruct (entry_exit h n) as [[entry exit]|]; [|discriminate].
      destruct (block_data bbs entry) as [[entry_bb rmb]|]; [|discriminate].
      destruct (write rmb ins z1) as [z2|] eqn:Ww; [|discriminate].
      destruct (emit_cfg_kids h rec bbs (Some outs) (h_kids h n) (append (IBr entry_bb) z2)) as [z3|] eqn:K; [|discriminate].
      destruct (block_data bbs exit) as [[bb rm]|] eqn:Bx; [|discriminate]. injection X as <-.
      destruct (cfg_blocks_grows _ _ _ _ _ _ (c_inv _ _ (proj1 G0)) Bs) as (G1 & Cu1 & Co1 & _ & Range).
      pose proof (write_grows _ _ _ _ (c_inv _ _ (proj1 G1)) Ww) as G2.
      pose proof (append_grows (IBr entry_bb) z2 (c_inv _ _ (proj1 G2))) as G3. set (z2' := append (IBr entry_bb) z2) in *.
      pose proof (grows_trans _ _ _ G0 (grows_trans _ _ _ G1 (grows_trans _ _ _ G2 G3))) as G.
      assert (R : forall c b r, In (c, (b, r)) bbs -> blocks s <= b < blocks z2').
      { intros c b r Ic. pose proof (c_blocks _ _ (proj1 G0)). pose proof (c_blocks _ _ (proj1 G1)). pose proof (c_blocks _ _ (proj1 G2)). pose proof (c_blocks _ _ (proj1 G3)).
        destruct (Range _ _ _ Ic) as [[-> _]|Y]; lia. }
      assert (Fb : fits_in bbs z2') by (intros c b r Ic; apply (R _ _ _ Ic)).
      destruct (cfg_kids_grows bbs _ _ _ _ (c_inv _ _ (proj1 G3)) Fb K) as (A0 & A1 & A2 & A3 & A4 & A5 & A6).
      pose proof (R _ _ _ (block_data_in _ _ _ Bx)) as Rb.
      split; [|right; cbn; lia]. constructor.
      - apply position_inv; [exact A0|lia].
      - intros b. cbn. destruct (c_code _ _ (proj1 G) b) as (t & Et). destruct (A5 b) as (u & Eu). exists (t ++ u). now rewrite Eu, Et, app_assoc.
      - intros b L Nb. cbn. rewrite A6; [now apply (c_old _ _ (proj1 G))| |].
        + pose proof (c_blocks _ _ (proj1 G)). lia.
        + intros c r Ic. pose proof (R _ _ _ Ic). lia.
      - pose proof (c_blocks _ _ (proj1 G)). cbn. lia.
      - pose proof (c_regs _ _ (proj1 G)). cbn. lia.
      - pose proof (c_anon _ _ (proj1 G)). cbn. lia.
    Qed.

    Lemma simple_grows : forall i len outs (s s' : st), inv s -> emit_simple i len outs s = Some s' -> grows s s'.
    Proof.
      intros i len outs s s' I X. unfold emit_simple in X. destruct (compute i len s) as [v z0] eqn:C. destruct (compute_grows _ _ _ _ _ I C) as (G & _).
      eapply grows_trans; [exact G|]. eapply write_grows; [apply (c_inv _ _ (proj1 G))|exact X].
    Qed.

    Lemma optype_grows : forall n ins outs s s', inv s -> emit_optype content handled h rec n ins outs s = Some s' -> grows s s'.
    Proof.
      intros n ins outs s s' I X. unfold emit_optype in X.
      destruct (h_ops h n); try discriminate;
        repeat match type of X with
               | (if ?b then _ else _) = _ => destruct b; try discriminate
               | (match ?b with _ => _ end) = _ => destruct b; try discriminate
               end;
        try (injection X as <-; now apply grows_refl);
        first [exact (simple_grows _ _ _ _ _ I X)|exact (rec_grows _ _ _ _ _ I X)|exact (conditional_grows _ _ _ _ _ _ I X)|
               exact (cfg_grows _ _ _ _ _ I X)|exact (tail_loop_grows _ _ _ _ _ _ _ I X)].
    Qed.

    Lemma nodes_grows : forall l ins outs s s', inv s -> emit_nodes content handled h rec ins outs l s = Some s' -> grows s s'.
    Proof.
      induction l as [|n l IH]; intros ins outs s s' I X; cbn [emit_nodes] in X; [injection X as <-; now apply grows_refl|].
      destruct (node_ins h n) as [ps|]; [|discriminate]. destruct (read ps s) as [vs z0] eqn:Rd. rewrite read_compute in Rd.
      destruct (compute_grows _ _ _ _ _ I Rd) as (G0 & _). pose proof (c_inv _ _ (proj1 G0)) as I0.
      assert (K : forall z1 ins outs, grows z0 z1 -> emit_nodes content handled h rec ins outs l z1 = Some s' -> grows s s').
      { intros z1 i o G1 Y. exact (grows_trans _ _ _ G0 (grows_trans _ _ _ G1 (IH _ _ _ _ (c_inv _ _ (proj1 G1)) Y))). }
      assert (Other : forall z1, emit_optype content handled h rec n vs (node_outs h n) z0 = Some z1 -> grows z0 z1)
        by (intros z1 Y; exact (optype_grows _ _ _ _ _ I0 Y)).
      destruct (h_ops h n);
        try (destruct (emit_optype content handled h rec n vs (node_outs h n) z0) as [z1|]; [|discriminate]; exact (K _ _ _ (Other _ eq_refl) X)).
      - destruct ins as [i|]; [|discriminate]. destruct (write (node_outs h n) i z0) as [z1|] eqn:Ww; [|discriminate].
        exact (K _ _ _ (write_grows _ _ _ _ I0 Ww) X).
      - destruct outs as [o|]; [|discriminate]. destruct (write o vs z0) as [z1|] eqn:Ww; [|discriminate].
        exact (K _ _ _ (write_grows _ _ _ _ I0 Ww) X).
    Qed.

    Lemma children_grows : forall p ins outs s s', inv s -> emit_children content handled h rec p ins outs s = Some s' -> grows s s'.
    Proof.
      intros p ins outs s s' I X. unfold emit_children in X. destruct (fat_io h p); [|discriminate]. destruct (topo_order h p); [|discriminate].
      exact (nodes_grows _ _ _ _ _ I X).
    Qed.
  End Rec.

  Theorem parent_grows : forall fuel p ins outs s s', inv s -> emit_dataflow_parent content handled h fuel p ins outs s = Some s' -> grows s s'.
  Proof.
    induction fuel as [|fuel IH]; intros p ins outs s s' I X; cbn [emit_dataflow_parent] in X; [discriminate|].
    exact (children_grows _ IH _ _ _ _ _ I X).
  Qed.
End Emit.
