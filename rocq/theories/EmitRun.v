(** How emitted code runs: instruction by instruction, from a place in a block. *)
From Coq Require Import List Bool NArith Arith Lia.
From Verif Require Import PValModel PValSpec TypesModel GraphModel GraphProofs OpModel DeadModel InlineModel ReplaceModel ValidModel FlowModel FlowSpec EmitModel EmitSpec EmitGrow.
Import ListNotations.
Open Scope nat_scope.

Lemma ptr_eqb_iff : forall a b, ptr_eqb a b = true <-> a = b.
Proof.
  intros [n p|k] [m q|l]; cbn; split; intros X; try discriminate.
  - apply andb_prop in X. destruct X as [A B]. apply N.eqb_eq in A. apply Nat.eqb_eq in B. now subst.
  - injection X as -> ->. rewrite N.eqb_refl, Nat.eqb_refl. reflexivity.
  - apply N.eqb_eq in X. now subst.
  - injection X as ->. apply N.eqb_refl.
Qed.

Lemma each_some_nth : forall {A B} (f : A -> option B) l r, each_some f l = Some r ->
  length r = length l /\ forall k, nth_error r k = match nth_error l k with Some a => f a | None => None end.
Proof.
  intros A B f. induction l as [|a l IH]; intros r X; cbn in X; [injection X as <-; split; [reflexivity|now intros [|k]]|].
  destruct (f a) as [b|] eqn:Fa; [|discriminate]. destruct (each_some f l) as [bs|]; [|discriminate]. injection X as <-.
  destruct (IH bs eq_refl) as [L N_]. split; [cbn; now rewrite L|]. intros [|k]; cbn; [symmetry; exact Fa|apply N_].
Qed.

Lemma each_some_all : forall {A B} (f : A -> option B) l, (forall a, In a l -> exists b, f a = Some b) -> exists r, each_some f l = Some r.
Proof.
  intros A B f. induction l as [|a l IH]; intros H; cbn; [now exists []|].
  destruct (H a (or_introl eq_refl)) as (b & ->). destruct IH as (r & ->); [intros x Ix; apply H; now right|eauto].
Qed.

Lemma each_some_ext : forall {A B} (f g : A -> option B) l, (forall a, In a l -> f a = g a) -> each_some f l = each_some g l.
Proof.
  intros A B f g. induction l as [|a l IH]; intros H; cbn; [reflexivity|].
  rewrite (H a (or_introl eq_refl)), IH; [reflexivity|]. intros x Ix. apply H. now right.
Qed.

Section Memory.
  Context {W : Type}.
  Notation conc := (conc W N unit).
  Implicit Types (m : @mem W).

  Lemma store_same m p v : store m p v p = Some v.
  Proof. unfold store. destruct (ptr_eqb p p) eqn:X; [reflexivity|]. rewrite (proj2 (ptr_eqb_iff p p) eq_refl) in X. discriminate. Qed.
  Lemma store_other m p v q : q <> p -> store m p v q = m q.
  Proof. intros N_. unfold store. destruct (ptr_eqb q p) eqn:X; [|reflexivity]. apply ptr_eqb_iff in X. congruence. Qed.

  Lemma stores_other : forall ps vs m q, ~ In q ps -> stores m ps vs q = m q.
  Proof.
    induction ps as [|p ps IH]; intros vs m q N_; [reflexivity|]. destruct vs as [|v vs]; [reflexivity|]. cbn. rewrite IH; [|intros X; apply N_; now right].
    apply store_other. intros ->. apply N_. now left.
  Qed.

  Lemma loads_ext : forall ps m m', (forall p, In p ps -> m p = m' p) -> loads m ps = loads m' ps.
  Proof. intros ps m m' H. apply each_some_ext. exact H. Qed.

  Lemma stores_loads : forall ps vs m, NoDup ps -> length vs = length ps -> loads (stores m ps vs) ps = Some vs.
  Proof.
    induction ps as [|p ps IH]; intros vs m N_ L; [destruct vs; [reflexivity|discriminate]|]. destruct vs as [|v vs]; [discriminate|].
    inversion N_ as [|? ? Np Nps]; subst. cbn [stores loads each_some]. unfold loads in *. rewrite stores_other by exact Np. rewrite store_same, IH; auto.
  Qed.

  Lemma stores_nth : forall ps vs m k p v, NoDup ps -> length vs = length ps -> nth_error ps k = Some p -> nth_error vs k = Some v -> stores m ps vs p = Some v.
  Proof.
    intros ps vs m k p v N_ L Ep Ev. pose proof (stores_loads ps vs m N_ L) as X. apply each_some_nth in X. destruct X as [_ X]. specialize (X k). rewrite Ep, Ev in X. now symmetry.
  Qed.

  (** Writing back what was read changes nothing. *)
  Lemma stores_back : forall ps vs m, loads m ps = Some vs -> forall q, stores m ps vs q = m q.
  Proof.
    assert (G : forall ps vs m, (forall k p v, nth_error ps k = Some p -> nth_error vs k = Some v -> m p = Some v) -> forall q, stores m ps vs q = m q).
    { induction ps as [|p ps IH]; intros vs m H q; [reflexivity|]. destruct vs as [|v vs]; [reflexivity|]. cbn.
      pose proof (H 0 p v eq_refl eq_refl) as Hp.
      assert (Same : forall x, store m p v x = m x).
      { intros x. unfold store. destruct (ptr_eqb x p) eqn:X; [|reflexivity]. apply ptr_eqb_iff in X. now subst. }
      rewrite IH; [apply Same|]. intros k p' v' A B. rewrite Same. exact (H (S k) p' v' A B). }
    intros ps vs m L. apply G. intros k p v A B. apply each_some_nth in L. destruct L as [_ L]. specialize (L k). now rewrite A, B in L.
  Qed.
End Memory.

Section Run.
  Context {W E F M : Type}.
  Notation conc := (conc W N unit).
  Notation instr := (instr E).
  Notation st := (st E).
  Variable ext_value : E -> W.
  Variable run_op : N -> list conc -> list conc -> Prop.
  Variable defined : N -> option (@func E).
  Variable declared : N -> list conc -> list conc -> Prop.
  Notation exec := (exec ext_value run_op defined declared).

  Section Steps.
    Variable c : N -> list instr.

    Lemma exec_load : forall k r ps l m g o vs, exec c k (ILoad r ps :: l) m g o -> loads m ps = Some vs ->
      exists k', k = S k' /\ exec c k' l m (upd g r (Some vs)) o.
    Proof. intros k r ps l m g o vs X L. inversion X; subst; try (cbn in *; congruence). assert (vs0 = vs) by congruence. subst. eauto. Qed.

    Lemma exec_store : forall k ps a l m g o vs0, exec c k (IStore ps a :: l) m g o -> g a = Some vs0 ->
      exists k' vs, k = S k' /\ g a = Some vs /\ length vs = length ps /\ exec c k' l (stores m ps vs) g o.
    Proof. intros k ps a l m g o vs0 X Y. inversion X; subst; try (cbn in *; congruence). eauto 6. Qed.

    Lemma exec_ext : forall k r n a l m g o vs0, exec c k (IExt r n a :: l) m g o -> g a = Some vs0 ->
      exists k' ins outs, k = S k' /\ g a = Some ins /\ run_op n ins outs /\ exec c k' l m (upd g r (Some outs)) o.
    Proof. intros k r n a l m g o vs0 X Y. inversion X; subst; try (cbn in *; congruence). eauto 8. Qed.

    Lemma exec_tag : forall k r t a l m g o vs0, exec c k (ITag r t a :: l) m g o -> g a = Some vs0 ->
      exists k' ins, k = S k' /\ g a = Some ins /\ exec c k' l m (upd g r (Some [CSum (N.of_nat t) ins])) o.
    Proof. intros k r t a l m g o vs0 X Y. inversion X; subst; try (cbn in *; congruence). eauto 8. Qed.

    Lemma exec_const : forall k r v l m g o, exec c k (IConst r v :: l) m g o ->
      exists k', k = S k' /\ exec c k' l m (upd g r (Some [constant ext_value v])) o.
    Proof. intros k r v l m g o X. inversion X; subst; try (cbn in *; discriminate). eauto 8. Qed.

    Lemma exec_func : forall k r f l m g o, exec c k (IFunc r f :: l) m g o -> exists k', k = S k' /\ exec c k' l m (upd g r (Some [CFun f tt])) o.
    Proof. intros k r f l m g o X. inversion X; subst; try (cbn in *; discriminate). eauto 8. Qed.

    Lemma exec_fields : forall k r t len a l m g o vs0, exec c k (IFields r t len a :: l) m g o -> g a = Some vs0 ->
      exists k' cs rest, k = S k' /\ g a = Some (CSum (N.of_nat t) cs :: rest) /\ length cs = len /\ exec c k' l m (upd g r (Some (cs ++ rest))) o.
    Proof. intros k r t len a l m g o vs0 X Y. inversion X; subst; try (cbn in *; congruence). eauto 8. Qed.

    Lemma exec_br : forall k b l m g o, exec c k (IBr b :: l) m g o -> exists k', k = S k' /\ exec c k' (c b) m g o.
    Proof. intros k b l m g o X. inversion X; subst; try (cbn in *; discriminate). eauto 8. Qed.

    Lemma exec_switch : forall k a d cases l m g o vs0, exec c k (ISwitch a d cases :: l) m g o -> g a = Some vs0 ->
      exists k' t cs rest, k = S k' /\ g a = Some (CSum t cs :: rest) /\ exec c k' (c (goes_to t d cases)) m g o.
    Proof. intros k a d cases l m g o vs0 X Y. inversion X; subst; try (cbn in *; congruence). eauto 8. Qed.

    Lemma exec_ret : forall k a l m g o vs0, exec c k (IRet a :: l) m g o -> g a = Some vs0 -> exists vs, g a = Some vs /\ o = Returns vs.
    Proof. intros k a l m g o vs0 X Y. inversion X; subst; try (cbn in *; congruence). eauto 8. Qed.

    Lemma exec_call : forall k i r f vs len l m g o, exec c k (i :: l) m g o -> call_of i g = Some (r, f, vs, len) ->
      (exists fn outs k1 k2, defined f = Some fn /\ length vs = f_params fn /\
         exec (f_code fn) k1 (f_code fn 0%N) no_mem (with_params vs) (Returns outs) /\ length outs = len /\ k = S (k1 + k2) /\
         exec c k2 l m (upd g r (Some outs)) o) \/
      (exists fn k1, defined f = Some fn /\ length vs = f_params fn /\ k = S k1 /\
         exec (f_code fn) k1 (f_code fn 0%N) no_mem (with_params vs) Undefined) \/
      (exists outs k2, defined f = None /\ declared f vs outs /\ length outs = len /\ k = S k2 /\ exec c k2 l m (upd g r (Some outs)) o).
    Proof.
      intros k i r f vs len l m g o X C. inversion X; subst; try (cbn in C; discriminate C).
      - exfalso. destruct i; cbn in *; try discriminate; match goal with Y : Some _ = Some ?a |- _ => injection Y as -> end; match goal with Y : g ?a = None |- _ => rewrite Y in C; discriminate end.
      - left. assert (Q : (r0, f0, vs0, length outs) = (r, f, vs, len)) by congruence. injection Q as -> -> -> <-. eauto 12.
      - right. left. assert (Q : (r0, f0, vs0, len0) = (r, f, vs, len)) by congruence. injection Q as -> -> -> <-. eauto 12.
      - right. right. assert (Q : (r0, f0, vs0, length outs) = (r, f, vs, len)) by congruence. injection Q as -> -> -> <-. eauto 12.
    Qed.
  End Steps.

  (** ** Places in the code *)
  Variable Fc : N -> list instr.
  Definition ext (s : st) : Prop := forall b, exists t, Fc b = code s b ++ t.
  Definition pos (s : st) : list instr := skipn (length (code s (cur s))) (Fc (cur s)).

  Lemma core_ext : forall s s', core s s' -> ext s' -> ext s.
  Proof. intros s s' C X b. destruct (X b) as (t & Et). destruct (c_code _ _ C b) as (u & Eu). exists (u ++ t). now rewrite Et, Eu, app_assoc. Qed.
  Lemma grows_ext : forall s s', grows s s' -> ext s' -> ext s.
  Proof. intros s s' [C _]. now apply core_ext. Qed.
  Lemma position_ext : forall b s, ext (position b s) <-> ext s.
  Proof. intros b s. reflexivity. Qed.

  Lemma pos_append : forall i s, ext (append i s) -> pos s = i :: pos (append i s).
  Proof.
    intros i s X. unfold pos. cbn [append cur code]. rewrite upd_same. destruct (X (cur s)) as (t & Et). cbn [append code] in Et. rewrite upd_same in Et. rewrite Et.
    assert (G : forall (a b : list instr), skipn (length a) (a ++ b) = b) by (intros a b; rewrite skipn_app, Nat.sub_diag, skipn_all; reflexivity).
    rewrite (G (code s (cur s) ++ [i]) t). rewrite <- app_assoc, G. reflexivity.
  Qed.

  Lemma pos_same : forall s s', cur s' = cur s -> code s' (cur s) = code s (cur s) -> pos s' = pos s.
  Proof. intros s s' Eu Ec. unfold pos. now rewrite Eu, Ec. Qed.

  Lemma pos_empty : forall b s, code s b = [] -> pos (position b s) = Fc b.
  Proof. intros b s Ec. unfold pos. cbn. rewrite Ec. reflexivity. Qed.

  Lemma pos_compute : forall i n s v s', compute i n s = (v, s') -> ext s' -> pos s = i (regs s) :: pos s'.
  Proof. intros i n s v s' C X. unfold compute in C. cbn in C. injection C as <- <-. rewrite <- (pos_append _ _ X). apply pos_same; reflexivity. Qed.

  Lemma pos_write : forall ps a s s', write ps a s = Some s' -> ext s' -> pos s = IStore ps (r_reg a) :: pos s' /\ length ps = r_len a.
  Proof. intros ps a s s' C X. apply write_inv in C. destruct C as [L ->]. split; [now apply pos_append|exact L]. Qed.

  (** A whole block: the code that is in it. *)
  Lemma block_code : forall b s t, ext s -> code s b = t -> exists u, Fc b = t ++ u.
  Proof. intros b s t X <-. apply X. Qed.

  Lemma goes_nth : forall bbs d k t, (k <= t)%nat ->
    goes_to (N.of_nat t) d (combine (seq k (length bbs)) bbs) = nth (t - k) bbs d.
  Proof.
    induction bbs as [|b bbs IH]; intros d k t L; cbn [length seq combine goes_to]; [now destruct (t - k)|].
    destruct (N.eqb_spec (N.of_nat t) (N.of_nat k)) as [X|X].
    - assert (t = k) by lia. subst. rewrite Nat.sub_diag. reflexivity.
    - rewrite IH by lia. replace (t - k)%nat with (S (t - S k)) by lia. reflexivity.
  Qed.

  Lemma goes_zero : forall bbs d k, (0 < k)%nat -> goes_to 0%N d (combine (seq k (length bbs)) bbs) = d.
  Proof.
    induction bbs as [|b bbs IH]; intros d k L; cbn [length seq combine goes_to]; [reflexivity|]. destruct (N.eqb_spec 0 (N.of_nat k)) as [X|X]; [lia|]. apply IH. lia.
  Qed.

  (** Destructuring a sum: the handler of the variant runs, with its fields and the other values. *)
  Lemma destructure_run : forall (handler : nat -> row -> st -> option st) a lens s s' k m g o,
    (forall k vs s s', inv s -> handler k vs s = Some s' -> core s s') ->
    inv s -> build_destructure handler a lens s = Some s' -> ext s' -> exec Fc k (pos s) m g o -> (exists vs, g (r_reg a) = Some vs) ->
    exists t cs rest len s1 s2 r k', g (r_reg a) = Some (CSum (N.of_nat t) cs :: rest) /\ nth_error lens t = Some len /\ length cs = len /\
      handler t {| r_reg := r; r_len := len + (r_len a - 1) |} s1 = Some s2 /\ inv s1 /\ core s1 s2 /\ ext s2 /\
      (regs s <= r)%N /\ (r < regs s1)%N /\ (anon s <= anon s1)%N /\ k' < k /\ exec Fc k' (pos s1) m (upd g r (Some (cs ++ rest))) o.
  Proof.
    intros handler a lens s s' k m g o H I D X Ex (vs0 & Hg). destruct (build_destructure_grows handler a lens s s' H I D) as [G _].
    apply destructure_inv in D. destruct D as (La & bb & bbs & sd & D & ->).
    destruct (destructure_grows handler a H lens 0 s (bb :: bbs) sd I D) as (C & Old & Len & Each).
    assert (Xd : ext sd) by (apply (position_ext (cur s) sd); apply (grows_ext _ _ (append_grows (ISwitch (r_reg a) bb (combine (seq 1 (length bbs)) bbs)) (position (cur s) sd) (position_inv _ _ (c_inv _ _ C) (N.lt_le_trans _ _ _ (proj2 I) (c_blocks _ _ C))))); exact X).
    pose proof (pos_append _ _ X) as Ep. rewrite (pos_same s (position (cur s) sd)) in Ep; [|reflexivity|apply (Old (cur s)); apply I].
    rewrite Ep in Ex. apply (fun Y => exec_switch _ _ _ _ _ _ _ _ _ _ Y Hg) in Ex. destruct Ex as (k1 & t & cs & rest & -> & Eg & Ex).
    set (tn := N.to_nat t).
    set (b := goes_to t bb (combine (seq 1 (length bbs)) bbs)) in *.
    assert (Eb : exists j, nth_error (bb :: bbs) j = Some b /\ (j = tn \/ (j = 0 /\ (length bbs < tn)%nat))).
    { unfold b. destruct (N.eq_dec t 0) as [->|N0].
      - exists 0. rewrite goes_zero by lia. split; [reflexivity|left; reflexivity].
      - replace t with (N.of_nat tn) by (unfold tn; apply N2Nat.id). rewrite goes_nth by (unfold tn; lia).
        destruct (Nat.lt_ge_cases (tn - 1) (length bbs)) as [L|L].
        + exists tn. split; [|now left]. replace tn with (S (tn - 1)) at 1 by (unfold tn; lia). cbn. apply nth_error_nth'. exact L.
        + exists 0. rewrite nth_overflow by exact L. split; [reflexivity|right; split; [reflexivity|unfold tn in *; lia]]. }
    destruct Eb as (j & Ej & Cj).
    assert (Lj : (j < length lens)%nat) by (rewrite <- Len; apply nth_error_Some; now rewrite Ej).
    destruct (nth_error lens j) as [len|] eqn:El; [|apply nth_error_None in El; lia].
    destruct (Each j len El) as (bb' & s1 & s2 & r & A1 & A2 & A3 & A4 & A5 & A6 & A7 & A8 & A9 & A10 & A11).
    assert (Q : bb' = b) by congruence. rewrite Q in A2, A3, A10. clear A1 Q. rewrite Nat.add_0_l in A10, A11.
    assert (X2 : ext s2) by (apply (core_ext _ _ A9); exact Xd).
    assert (X1 : ext s1) by (apply (core_ext _ _ A8); exact X2).
    destruct (X1 b) as (u & Eu). rewrite A10 in Eu. cbn [app] in Eu. rewrite Eu in Ex.
    apply (fun Y => exec_fields _ _ _ _ _ _ _ _ _ _ _ Y Hg) in Ex. destruct Ex as (k2 & cs' & rest' & -> & Eg' & Lc & Ex).
    rewrite Eg in Eg'. injection Eg' as Et <- <-.
    exists j, cs, rest, len, s1, s2, r, k2. rewrite Eg, Et. repeat (split; [first [assumption|reflexivity|lia]|]).
    replace (pos s1) with u; [exact Ex|]. unfold pos. rewrite A3, A10, Eu. reflexivity.
  Qed.

  (** The handlers write to a mailbox and branch. *)
  Lemma write_br_run : forall ps b vs (s s' : st) k m g o, option_map (append (IBr b)) (write ps vs s) = Some s' -> inv s -> ext s' ->
    exec Fc k (pos s) m g o -> (exists cs, g (r_reg vs) = Some cs) -> exists k' cs, k' < k /\ g (r_reg vs) = Some cs /\ length cs = length ps /\ length ps = r_len vs /\ exec Fc k' (Fc b) (stores m ps cs) g o.
  Proof.
    intros ps b vs s s' k m g o D I X Ex (vs0 & Hg). destruct (write ps vs s) as [s1|] eqn:Ww; [|discriminate]. injection D as <-.
    pose proof (write_grows _ _ _ _ I Ww) as G. pose proof (grows_ext _ _ (append_grows (IBr b) s1 (c_inv _ _ (proj1 G))) X) as X1.
    destruct (pos_write _ _ _ _ Ww X1) as [Ep L]. rewrite Ep in Ex. apply (fun Y => exec_store _ _ _ _ _ _ _ _ _ Y Hg) in Ex. destruct Ex as (k1 & cs & -> & Eg & Lc & Ex).
    rewrite (pos_append _ _ X) in Ex. apply exec_br in Ex. destruct Ex as (k2 & -> & Ex). exists k2, cs. repeat (split; [first [assumption|lia]|]). exact Ex.
  Qed.
End Run.
Arguments exec_load {W E ext_value run_op defined declared c k r ps l m g o vs} _ _.
Arguments exec_store {W E ext_value run_op defined declared c k ps a l m g o vs0} _ _.
Arguments exec_ext {W E ext_value run_op defined declared c k r n a l m g o vs0} _ _.
Arguments exec_tag {W E ext_value run_op defined declared c k r t a l m g o vs0} _ _.
Arguments exec_const {W E ext_value run_op defined declared c k r v l m g o} _.
Arguments exec_func {W E ext_value run_op defined declared c k r f l m g o} _.
Arguments exec_br {W E ext_value run_op defined declared c k b l m g o} _.
Arguments exec_ret {W E ext_value run_op defined declared c k a l m g o vs0} _ _.
Arguments exec_call {W E ext_value run_op defined declared c k i r f vs len l m g o} _ _.
Arguments destructure_run {W E ext_value run_op defined declared Fc handler a lens s s' k m g o} _ _ _ _ _ _.
Arguments write_br_run {W E ext_value run_op defined declared Fc ps b vs s s' k m g o} _ _ _ _ _.
Arguments pos_compute {E Fc i n s v s'} _ _.
Arguments pos_write {E Fc ps a s s'} _ _.
Arguments core_ext {E Fc s s'} _ _ _.
Arguments grows_ext {E Fc s s'} _ _ _.
