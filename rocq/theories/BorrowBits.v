(** * The mask of a borrow array, bit by bit *)

From Coq Require Import List Arith Lia NArith Bool.
From Verif Require Import BorrowModel.
Import ListNotations.
Open Scope N_scope.

Section Bits.
Context {V : Type}.
Variable B : N.
Hypothesis HB : 1 <= B.

Notation W := (W B).
Notation wrap := (wrap B).
Notation all_ones := (all_ones B).

Lemma W_pos : 8 <= W.
Proof. unfold BorrowModel.W. lia. Qed.

Lemma W_nz : W <> 0.
Proof. pose proof W_pos. lia. Qed.

Lemma lt_pow2 n : n < 2 ^ n.
Proof. apply N.pow_gt_lin_r. lia. Qed.

Lemma W_lt : W < 2 ^ W.
Proof. apply lt_pow2. Qed.

Lemma pow_nz k : 2 ^ k <> 0.
Proof. apply N.pow_nonzero. lia. Qed.

Lemma wrap_small x : x < 2 ^ W -> wrap x = x.
Proof. intro H. unfold BorrowModel.wrap. apply N.mod_small, H. Qed.

Lemma wrap_lt x : wrap x < 2 ^ W.
Proof. apply N.mod_upper_bound, pow_nz. Qed.

Lemma wrap_sub a b : b <= a -> a - b < 2 ^ W -> wrap (a + 2 ^ W - b) = a - b.
Proof.
  intros H1 H2. unfold BorrowModel.wrap.
  replace (a + 2 ^ W - b) with (a - b + 1 * 2 ^ W) by lia.
  rewrite N.mod_add by apply pow_nz. apply N.mod_small, H2.
Qed.

Lemma all_ones_ones : all_ones = N.ones W.
Proof. unfold BorrowModel.all_ones. rewrite N.ones_equiv. lia. Qed.

Lemma all_ones_bit j : N.testbit all_ones j = (j <? W).
Proof.
  rewrite all_ones_ones. destruct (N.ltb_spec j W).
  - now apply N.ones_spec_low.
  - now apply N.ones_spec_high.
Qed.

Lemma all_ones_lt : all_ones < 2 ^ W.
Proof. unfold BorrowModel.all_ones. pose proof (pow_nz W). lia. Qed.

Lemma bit_high x j : x < 2 ^ W -> W <= j -> N.testbit x j = false.
Proof.
  intros Hx Hj. destruct (N.eq_dec x 0) as [->|Hz]; [apply N.bits_0|].
  apply N.bits_above_log2. apply N.lt_le_trans with W; [|exact Hj].
  apply N.log2_lt_pow2; [lia|exact Hx].
Qed.

Lemma lt_of_bits x : (forall j, W <= j -> N.testbit x j = false) -> x < 2 ^ W.
Proof.
  intro H. destruct (N.eq_dec x 0) as [->|Hz]; [pose proof (pow_nz W); lia|].
  apply N.log2_lt_pow2; [lia|].
  destruct (N.lt_ge_cases (N.log2 x) W) as [L|L]; [exact L|].
  specialize (H _ L). rewrite N.bit_log2 in H by exact Hz. discriminate.
Qed.

(** Two words are equal when their bits are. *)
Lemma word_ext x y : x < 2 ^ W -> y < 2 ^ W ->
  (forall j, j < W -> N.testbit x j = N.testbit y j) -> x = y.
Proof.
  intros Hx Hy H. apply N.bits_inj. intro j.
  destruct (N.lt_ge_cases j W) as [L|L]; [apply H, L|].
  now rewrite !bit_high.
Qed.

Lemma shl_bits a k s : shl B a k = Some s ->
  k < W /\ s < 2 ^ W /\
  forall j, j < W -> N.testbit s j = (k <=? j) && N.testbit a (j - k).
Proof.
  unfold shl. destruct (N.ltb_spec k W); [|discriminate]. intro E.
  injection E as <-. split; [assumption|]. split; [apply wrap_lt|].
  intros j Hj. unfold BorrowModel.wrap. rewrite N.mod_pow2_bits_low by exact Hj.
  destruct (N.leb_spec k j).
  - now rewrite N.shiftl_spec_high' by assumption.
  - now rewrite N.shiftl_spec_low by assumption.
Qed.

Lemma lshr_bits a k s : a < 2 ^ W -> lshr B a k = Some s ->
  k < W /\ s < 2 ^ W /\
  forall j, N.testbit s j = N.testbit a (j + k).
Proof.
  unfold lshr. intro Ha. destruct (N.ltb_spec k W); [|discriminate]. intro E.
  injection E as <-. split; [assumption|].
  assert (forall j, N.testbit (N.shiftr a k) j = N.testbit a (j + k)) as Hs.
  { intro j. now rewrite N.shiftr_spec by apply N.le_0_l. }
  split; [|exact Hs].
  apply lt_of_bits. intros j Hj. rewrite Hs. apply bit_high; [exact Ha|lia].
Qed.

(** ** The bit of an index *)

Definition bit (words : N -> N) (i : N) : bool :=
  N.testbit (words (i / W)) (i mod W).

Definition set_word (words : N -> N) (k w : N) : N -> N :=
  fun j => if j =? k then w else words j.

Definition words_fit (len : N) (words : N -> N) : Prop :=
  forall j, j < len -> words j < 2 ^ W.

Lemma div_lt i len : i < W * len -> i / W < len.
Proof. intro H. apply N.div_lt_upper_bound; [apply W_nz|exact H]. Qed.

Lemma mod_lt i : i mod W < W.
Proof. apply N.mod_upper_bound, W_nz. Qed.

Lemma inspect_spec (h : @heap V) mp len words idx :
  cell h mp = Some (Mask len words) -> idx < W * len ->
  inspect_mask_idx_bit B h mp idx =
  Ok (idx / W, words (idx / W), idx mod W, bit words idx).
Proof.
  intros Hc Hi. unfold inspect_mask_idx_bit, load_word. rewrite Hc.
  pose proof (div_lt _ _ Hi) as L. apply N.ltb_lt in L. rewrite L. cbn [bind].
  unfold lshr. pose proof (mod_lt idx) as M. apply N.ltb_lt in M.
  rewrite M. cbn [use bind]. unfold bit.
  rewrite <- N.bit0_odd, N.shiftr_spec by apply N.le_0_l.
  now rewrite N.add_0_l.
Qed.

(** Flipping a bit. *)
Definition toggle (words : N -> N) (idx : N) : N -> N :=
  set_word words (idx / W) (N.lxor (words (idx / W)) (2 ^ (idx mod W))).

Lemma same_bit i idx : i / W = idx / W -> i mod W = idx mod W -> i = idx.
Proof.
  intros H1 H2. rewrite (N.div_mod i W), (N.div_mod idx W) by apply W_nz.
  now rewrite H1, H2.
Qed.

Lemma toggle_bit words idx i :
  bit (toggle words idx) i =
  if i =? idx then negb (bit words idx) else bit words i.
Proof.
  unfold bit, toggle, set_word. destruct (N.eqb_spec i idx) as [->|Hne].
  - rewrite N.eqb_refl, N.lxor_spec, N.pow2_bits_true. apply xorb_true_r.
  - destruct (N.eqb_spec (i / W) (idx / W)) as [E|E]; [|reflexivity].
    rewrite N.lxor_spec, N.pow2_bits_false, xorb_false_r.
    + now rewrite E.
    + intro E2. apply Hne, same_bit; congruence.
Qed.

Lemma toggle_fit len words idx :
  words_fit len words -> words_fit len (toggle words idx).
Proof.
  intros H j Hj. unfold toggle, set_word. destruct (N.eqb_spec j (idx / W)) as [->|];
    [|now apply H].
  apply lt_of_bits. intros k Hk. rewrite N.lxor_spec.
  rewrite bit_high by (try exact Hk; now apply H).
  rewrite N.pow2_bits_false; [reflexivity|]. pose proof (mod_lt idx). lia.
Qed.

(** ** Updating one block of memory *)

Definition updated (h : @heap V) (p : nat) (b : option block) (h' : @heap V)
    : Prop :=
  next h' = next h /\ cell h' p = b /\
  forall q, q <> p -> cell h' q = cell h q.

Lemma updated_set h p b : updated h p b (set_block h p b).
Proof.
  split; [reflexivity|]. cbn. split.
  - now rewrite Nat.eqb_refl.
  - intros q Hq. apply Nat.eqb_neq in Hq. now rewrite Hq.
Qed.

Lemma updated_same h p b : cell h p = b -> updated h p b h.
Proof. repeat split; auto. Qed.

Lemma updated_trans h p b1 h1 b2 h2 :
  updated h p b1 h1 -> updated h1 p b2 h2 -> updated h p b2 h2.
Proof.
  intros (N1 & C1 & F1) (N2 & C2 & F2). split; [congruence|]. split; [exact C2|].
  intros q Hq. now rewrite F2, F1.
Qed.

Lemma store_word_spec (h : @heap V) mp len words k w :
  cell h mp = Some (Mask len words) -> k < len ->
  exists h', store_word h mp k w = Ok h' /\
    updated h mp (Some (Mask len (set_word words k w))) h'.
Proof.
  intros Hc Hk. unfold store_word. rewrite Hc. apply N.ltb_lt in Hk. rewrite Hk.
  eexists. split; [reflexivity|]. apply updated_set.
Qed.

Lemma load_word_spec (h : @heap V) mp len words k :
  cell h mp = Some (Mask len words) -> k < len ->
  load_word h mp k = Ok (words k).
Proof.
  intros Hc Hk. unfold load_word. rewrite Hc. apply N.ltb_lt in Hk. now rewrite Hk.
Qed.

Lemma check_not_borrowed (h : @heap V) mp len words idx :
  cell h mp = Some (Mask len words) -> idx < W * len ->
  mask_check_emit B CCheckNotBorrowed h mp idx =
  if bit words idx then Panic AlreadyBorrowed else Ok h.
Proof.
  intros Hc Hi. unfold mask_check_emit.
  rewrite (inspect_spec _ _ _ _ _ Hc Hi). reflexivity.
Qed.

Lemma shl_one idx : use (shl B 1 (idx mod W)) = Ok (2 ^ (idx mod W)).
Proof.
  unfold shl. pose proof (mod_lt idx) as M. pose proof M as M'.
  apply N.ltb_lt in M'. rewrite M'.
  cbn [use]. rewrite N.shiftl_1_l, wrap_small; [reflexivity|].
  apply N.pow_lt_mono_r; [lia|exact M].
Qed.

Lemma check_borrow (h : @heap V) mp len words idx :
  cell h mp = Some (Mask len words) -> idx < W * len ->
  if bit words idx
  then mask_check_emit B CBorrow h mp idx = Panic AlreadyBorrowed
  else exists h', mask_check_emit B CBorrow h mp idx = Ok h' /\
    updated h mp (Some (Mask len (toggle words idx))) h'.
Proof.
  intros Hc Hi. unfold mask_check_emit.
  rewrite (inspect_spec _ _ _ _ _ Hc Hi). cbn [bind].
  destruct (bit words idx); [reflexivity|].
  rewrite shl_one. cbn [bind].
  apply store_word_spec; [exact Hc|now apply div_lt].
Qed.

Lemma check_return (h : @heap V) mp len words idx :
  cell h mp = Some (Mask len words) -> idx < W * len ->
  if bit words idx
  then exists h', mask_check_emit B CReturn h mp idx = Ok h' /\
    updated h mp (Some (Mask len (toggle words idx))) h'
  else mask_check_emit B CReturn h mp idx = Panic NotBorrowed.
Proof.
  intros Hc Hi. unfold mask_check_emit.
  rewrite (inspect_spec _ _ _ _ _ Hc Hi). cbn [bind].
  destruct (bit words idx); [|reflexivity].
  rewrite shl_one. cbn [bind].
  apply store_word_spec; [exact Hc|now apply div_lt].
Qed.

(** ** Padding *)

Definition side (e : bits_to_pad) (j k : N) : bool :=
  match e with Before => j <? k | After => k <? j end.

Definition pad_word (block : N) (k : N) (e : bits_to_pad) (value : bool)
    : res N :=
  if value then
    let '(num_used, shifted) :=
      match e with
      | Before =>
          let fst_block_used := wrap (W + 2 ^ W - k) in
          (fst_block_used, lshr B all_ones fst_block_used)
      | After =>
          let lst_block_used := wrap (k + 1) in
          (lst_block_used, shl B all_ones lst_block_used)
      end in
    do pad <- use (if num_used =? W then Some 0 else shifted);
    Ok (N.lor block pad)
  else
    do pad <-
      match e with
      | Before => use (shl B all_ones k)
      | After =>
          let lst_block_used := wrap (k + 1) in
          let lst_block_unused := wrap (W + 2 ^ W - lst_block_used) in
          use (lshr B all_ones lst_block_unused)
      end;
    Ok (N.land block pad).

Lemma pad_word_spec block k e value :
  block < 2 ^ W -> k < W ->
  exists w, pad_word block k e value = Ok w /\ w < 2 ^ W /\
    forall j, j < W ->
      N.testbit w j = if side e j k then value else N.testbit block j.
Proof.
  intros Hb Hk. pose proof W_lt as HW. pose proof (pow_nz W) as Hp.
  unfold pad_word. destruct value.
  - destruct e.
    + rewrite wrap_sub by lia. destruct (N.eqb_spec (W - k) W) as [E|E].
      * cbn [use bind]. exists (N.lor block 0). split; [reflexivity|].
        rewrite N.lor_0_r. split; [exact Hb|]. intros j Hj. cbn [side].
        destruct (N.ltb_spec j k); [lia|reflexivity].
      * destruct (lshr B all_ones (W - k)) as [s|] eqn:Es.
        2:{ unfold lshr in Es. destruct (N.ltb_spec (W - k) W); [discriminate|lia]. }
        destruct (lshr_bits _ _ _ all_ones_lt Es) as (_ & Hs & Hbits).
        cbn [use bind]. eexists. split; [reflexivity|]. split.
        { apply lt_of_bits. intros j Hj. rewrite N.lor_spec.
          now rewrite !bit_high. }
        intros j Hj. rewrite N.lor_spec, Hbits, all_ones_bit. cbn [side].
        destruct (N.ltb_spec j k), (N.ltb_spec (j + (W - k)) W); try lia;
          rewrite ?orb_true_r, ?orb_false_r; reflexivity.
    + rewrite (wrap_small (k + 1)) by lia.
      destruct (N.eqb_spec (k + 1) W) as [E|E].
      * cbn [use bind]. exists (N.lor block 0). split; [reflexivity|].
        rewrite N.lor_0_r. split; [exact Hb|]. intros j Hj. cbn [side].
        destruct (N.ltb_spec k j); [lia|reflexivity].
      * destruct (shl B all_ones (k + 1)) as [s|] eqn:Es.
        2:{ unfold shl in Es. destruct (N.ltb_spec (k + 1) W); [discriminate|lia]. }
        destruct (shl_bits _ _ _ Es) as (_ & Hs & Hbits).
        cbn [use bind]. eexists. split; [reflexivity|]. split.
        { apply lt_of_bits. intros j Hj. rewrite N.lor_spec.
          now rewrite !bit_high. }
        intros j Hj. rewrite N.lor_spec, Hbits, all_ones_bit by exact Hj.
        cbn [side].
        destruct (N.ltb_spec k j), (N.leb_spec (k + 1) j); try lia; cbn [andb];
          rewrite ?orb_false_r; try reflexivity.
        destruct (N.ltb_spec (j - (k + 1)) W); [apply orb_true_r|lia].
  - destruct e.
    + destruct (shl B all_ones k) as [s|] eqn:Es.
      2:{ unfold shl in Es. destruct (N.ltb_spec k W); [discriminate|lia]. }
      destruct (shl_bits _ _ _ Es) as (_ & Hs & Hbits).
      cbn [use bind]. eexists. split; [reflexivity|]. split.
      { apply lt_of_bits. intros j Hj. rewrite N.land_spec.
        now rewrite bit_high. }
      intros j Hj. rewrite N.land_spec, Hbits, all_ones_bit by exact Hj.
      cbn [side].
      destruct (N.ltb_spec j k), (N.leb_spec k j); try lia; cbn [andb];
        rewrite ?andb_false_r; try reflexivity.
      destruct (N.ltb_spec (j - k) W); [apply andb_true_r|lia].
    + cbv zeta. rewrite (wrap_small (k + 1)) by lia. rewrite wrap_sub by lia.
      destruct (lshr B all_ones (W - (k + 1))) as [s|] eqn:Es.
      2:{ unfold lshr in Es.
          destruct (N.ltb_spec (W - (k + 1)) W); [discriminate|lia]. }
      destruct (lshr_bits _ _ _ all_ones_lt Es) as (_ & Hs & Hbits).
      cbn [use bind]. eexists. split; [reflexivity|]. split.
      { apply lt_of_bits. intros j Hj. rewrite N.land_spec.
        now rewrite bit_high. }
      intros j Hj. rewrite N.land_spec, Hbits, all_ones_bit. cbn [side].
      destruct (N.ltb_spec k j), (N.ltb_spec (j + (W - (k + 1))) W); try lia;
        rewrite ?andb_true_r, ?andb_false_r; reflexivity.
Qed.

Lemma padding_unfold (h : @heap V) mp idx e value :
  build_mask_padding1d B h mp idx e value =
  (do block <- load_word h mp (idx / W);
   do w <- pad_word block (idx mod W) e value;
   store_word h mp (idx / W) w).
Proof. reflexivity. Qed.

Lemma side_index e i idx : i / W = idx / W ->
  side e (i mod W) (idx mod W) = side e i idx.
Proof.
  intro E. pose proof (N.div_mod i W W_nz) as H1.
  pose proof (N.div_mod idx W W_nz) as H2. rewrite E in H1.
  remember (W * (idx / W)) as t eqn:Et. clear Et.
  destruct e; cbn [side].
  - destruct (N.ltb_spec (i mod W) (idx mod W)), (N.ltb_spec i idx); lia.
  - destruct (N.ltb_spec (idx mod W) (i mod W)), (N.ltb_spec idx i); lia.
Qed.

(** Padding writes the value to the unused bits of the block of [idx], on one
    side, and to nothing else. *)
Lemma padding_spec (h : @heap V) mp len words idx e value :
  cell h mp = Some (Mask len words) -> idx < W * len -> words_fit len words ->
  exists h' words', build_mask_padding1d B h mp idx e value = Ok h' /\
    updated h mp (Some (Mask len words')) h' /\ words_fit len words' /\
    forall i, bit words' i =
      if (i / W =? idx / W) && side e i idx then value else bit words i.
Proof.
  intros Hc Hi Hf. rewrite padding_unfold.
  rewrite (load_word_spec _ _ _ _ _ Hc (div_lt _ _ Hi)). cbn [bind].
  destruct (pad_word_spec (words (idx / W)) (idx mod W) e value
              (Hf _ (div_lt _ _ Hi)) (mod_lt idx)) as (w & -> & Hw & Hbits).
  cbn [bind].
  destruct (store_word_spec h mp len words (idx / W) w Hc (div_lt _ _ Hi))
    as (h' & -> & U).
  exists h', (set_word words (idx / W) w).
  split; [reflexivity|]. split; [exact U|]. split.
  - intros j Hj. unfold set_word. destruct (j =? idx / W); [exact Hw|now apply Hf].
  - intro i. unfold bit, set_word.
    destruct (N.eqb_spec (i / W) (idx / W)) as [E|E]; cbn [andb]; [|reflexivity].
    rewrite (Hbits _ (mod_lt i)), (side_index e i idx E). now rewrite E.
Qed.

(** ** The check of the whole mask *)

Lemma loop_step {S} f iters idx (go : N -> S -> res S) s :
  idx < iters -> idx + 1 < 2 ^ W ->
  loop_from B (Datatypes.S f) iters idx go s =
  (do s' <- go idx s; loop_from B f iters (idx + 1) go s').
Proof.
  intros H H2. cbn [loop_from]. apply N.ltb_lt in H. rewrite H.
  now rewrite wrap_small.
Qed.

Lemma loop_end {S} f iters idx (go : N -> S -> res S) s :
  iters <= idx -> loop_from B f iters idx go s = Ok s.
Proof.
  intros H. apply N.ltb_ge in H. destruct f; cbn [loop_from]; now rewrite H.
Qed.

Definition check_body (mp : nat) (start expected : N) (e : err)
    : N -> @heap V -> res heap :=
  fun idx h =>
    let block_idx := wrap (idx + start) in
    do block <- load_word h mp block_idx;
    if block =? expected then Ok h else Panic e.

Lemma check_loop_ok (h : @heap V) mp len words start expected e iters :
  cell h mp = Some (Mask len words) -> start + iters <= len ->
  start + iters < 2 ^ W ->
  forall n k, N.of_nat n + k = iters ->
  (forall j, k <= j < iters -> words (start + j) = expected) ->
  loop_from B n iters k (check_body mp start expected e) h = Ok h.
Proof.
  intros Hc Hl Hlt. induction n as [|n IH]; intros k Hk Hall.
  - rewrite loop_end by lia. reflexivity.
  - rewrite loop_step by lia. unfold check_body at 1. cbv zeta.
    rewrite wrap_small by lia.
    rewrite (load_word_spec _ _ _ _ _ Hc) by lia. cbn [bind].
    rewrite N.add_comm, (Hall k) by lia. rewrite N.eqb_refl. cbn [bind].
    apply IH; [lia|]. intros j Hj. apply Hall. lia.
Qed.

Lemma check_loop_panic (h : @heap V) mp len words start expected e iters :
  cell h mp = Some (Mask len words) -> start + iters <= len ->
  start + iters < 2 ^ W ->
  forall n k, N.of_nat n + k = iters ->
  (exists j, k <= j < iters /\ words (start + j) <> expected) ->
  loop_from B n iters k (check_body mp start expected e) h = Panic e.
Proof.
  intros Hc Hl Hlt. induction n as [|n IH]; intros k Hk (j & Hj & Hne).
  - lia.
  - rewrite loop_step by lia. unfold check_body at 1. cbv zeta.
    rewrite wrap_small by lia.
    rewrite (load_word_spec _ _ _ _ _ Hc) by lia. cbn [bind].
    destruct (N.eqb_spec (words (k + start)) expected) as [E|E]; [|reflexivity].
    cbn [bind]. apply IH; [lia|]. exists j. split; [|exact Hne].
    destruct (N.eq_dec j k) as [->|]; [|lia].
    now rewrite N.add_comm in E.
Qed.

(** The word all of whose bits are [b]. *)
Definition const_word (b : bool) : N := if b then all_ones else 0.

Lemma const_word_bit b j : j < W -> N.testbit (const_word b) j = b.
Proof.
  intro Hj. destruct b; cbn [const_word]; [|apply N.bits_0].
  rewrite all_ones_bit. now apply N.ltb_lt.
Qed.

Lemma const_word_lt b : const_word b < 2 ^ W.
Proof.
  destruct b; cbn [const_word]; [apply all_ones_lt|].
  pose proof (pow_nz W). lia.
Qed.

Lemma bit_index q r words : r < W -> bit words (W * q + r) = N.testbit (words q) r.
Proof.
  intro Hr. unfold bit. rewrite N.mul_comm.
  rewrite N.div_add_l by apply W_nz. rewrite N.div_small by exact Hr.
  rewrite N.add_0_r. rewrite N.add_comm, N.mod_add by apply W_nz.
  now rewrite N.mod_small.
Qed.

(** The check of the bits from [off] to [off + size - 1]: it changes no bit
    among them. *)
Lemma check_all_spec (h : @heap V) mp len words off size expected e :
  cell h mp = Some (Mask len words) -> words_fit len words ->
  0 < size -> off + size <= W * len -> off + size < 2 ^ W ->
  if forallb (fun k => Bool.eqb (bit words (off + N.of_nat k)) expected)
       (seq 0 (N.to_nat size))
  then exists h' words', check_all_mask_eq B h mp off size expected e = Ok h' /\
    updated h mp (Some (Mask len words')) h' /\ words_fit len words' /\
    forall i, off <= i < off + size -> bit words' i = bit words i
  else check_all_mask_eq B h mp off size expected e = Panic e.
Proof.
  intros Hc Hf Hs Hl Hlt. pose proof W_pos as HWp. pose proof W_lt as HWl.
  unfold check_all_mask_eq.
  destruct (padding_spec h mp len words off Before expected Hc ltac:(lia) Hf)
    as (h1 & w1 & -> & U1 & F1 & B1). cbn [bind].
  rewrite (wrap_small (off + size)) by exact Hlt.
  rewrite (wrap_sub (off + size) 1) by lia.
  set (last := off + size - 1).
  destruct (padding_spec h1 mp len w1 last After expected
              (proj1 (proj2 U1)) ltac:(unfold last; lia) F1)
    as (h2 & w2 & -> & U2 & F2 & B2). cbn [bind]. cbv zeta.
  assert (Hse : off / W <= last / W).
  { apply N.div_le_mono; [apply W_nz|]. unfold last. lia. }
  assert (Hel : last / W < len) by (apply div_lt; unfold last; lia).
  assert (Hlw : last / W <= last).
  { apply N.div_le_upper_bound; [apply W_nz|]. nia. }
  assert (last < 2 ^ W - 1) as Hla by (unfold last; lia).
  assert (last / W < 2 ^ W - 1) as Hlw2.
  { apply N.le_lt_trans with last; [exact Hlw|exact Hla]. }
  assert (last / W - off / W <= last / W) as Hsub by apply N.le_sub_l.
  rewrite (wrap_sub (last / W) (off / W)); [|exact Hse|clear - Hsub Hlw2; lia].
  rewrite (wrap_small (last / W - off / W + 1)) by (clear - Hsub Hlw2; lia).
  set (iters := last / W - off / W + 1).
  assert (Hin : forall i, off <= i < off + size -> bit w2 i = bit words i).
  { intros i Hi. rewrite B2, B1. cbn [side].
    assert (last <? i = false) as -> by (apply N.ltb_ge; unfold last; lia).
    assert (i <? off = false) as -> by (apply N.ltb_ge; lia).
    now rewrite !andb_false_r. }
  assert (Hpad : forall i, off / W <= i / W <= last / W ->
            ~ (off <= i < off + size) -> bit w2 i = expected).
  { intros i Hi Hn. rewrite B2, B1. cbn [side].
    destruct (N.lt_ge_cases i off) as [L|L].
    - assert (i / W = off / W) as E.
      { assert (i / W <= off / W) by (apply N.div_le_mono; [apply W_nz|lia]). lia. }
      rewrite E, N.eqb_refl. apply N.ltb_lt in L. rewrite L. cbn [andb].
      now destruct ((off / W =? last / W) && (last <? i)).
    - assert (last < i) as L2 by (unfold last; lia).
      assert (i / W = last / W) as E.
      { assert (last / W <= i / W) by (apply N.div_le_mono; [apply W_nz|lia]). lia. }
      rewrite E, N.eqb_refl. apply N.ltb_lt in L2. rewrite L2. reflexivity. }
  change (fun idx h0 => do block <- load_word h0 mp (wrap (idx + off / W));
            (if block =? (if expected then all_ones else 0)
             then Ok h0 else Panic e))
    with (check_body mp (off / W) (const_word expected) e).
  unfold build_loop.
  destruct (forallb _ _) eqn:A.
  - exists h2, w2. split; [|split; [|split; [exact F2|exact Hin]]].
    2:{ eapply updated_trans; eassumption. }
    apply (check_loop_ok h2 mp len w2); try lia.
    { exact (proj1 (proj2 U2)). }
    intros j Hj. apply word_ext.
    { apply F2. unfold iters in Hj. lia. }
    { apply const_word_lt. }
    intros r Hr. rewrite const_word_bit by exact Hr.
    rewrite <- bit_index by exact Hr.
    set (i := W * (off / W + j) + r).
    destruct (N.lt_ge_cases i off) as [L|L];
      [|destruct (N.lt_ge_cases i (off + size)) as [L2|L2]].
    2:{ rewrite Hin by lia. rewrite forallb_forall in A.
        specialize (A (N.to_nat (i - off))).
        rewrite N2Nat.id in A. replace (off + (i - off)) with i in A by lia.
        apply eqb_prop, A, in_seq. lia. }
    1,2: apply Hpad; [|lia].
    1,2: assert (i / W = off / W + j) as ->
      by (symmetry; apply (N.div_unique i W (off / W + j) r); [exact Hr|reflexivity]);
      unfold iters in Hj; lia.
  - apply (check_loop_panic h2 mp len w2); try lia.
    { exact (proj1 (proj2 U2)). }
    assert (exists k, In k (seq 0 (N.to_nat size)) /\
              bit words (off + N.of_nat k) <> expected) as (k & Hk & Hne).
    { clear - A. induction (seq 0 (N.to_nat size)) as [|x l IH]; [discriminate|].
      cbn [forallb] in A. destruct (Bool.eqb (bit words (off + N.of_nat x)) expected) eqn:E.
      - destruct (IH A) as (k & Hk & Hne). exists k. split; [now right|exact Hne].
      - exists x. split; [now left|]. intro E2. rewrite E2 in E.
        now rewrite eqb_reflx in E. }
    apply in_seq in Hk.
    set (i := off + N.of_nat k) in *.
    assert (off <= i < off + size) as Hi by (unfold i; lia).
    assert (off / W <= i / W <= last / W) as Hib.
    { split; (apply N.div_le_mono; [apply W_nz|unfold last; lia]). }
    exists (i / W - off / W). split; [unfold iters; lia|].
    replace (off / W + (i / W - off / W)) with (i / W) by lia.
    intro E. apply Hne. rewrite <- Hin by exact Hi.
    unfold bit. rewrite E. apply const_word_bit, mod_lt.
Qed.

(** The word that [memset] leaves. *)
Lemma word_of_bytes_spec (b : bool) :
  word_of_bytes B (if b then 255 else 0) = const_word b.
Proof.
  unfold word_of_bytes. destruct b; cbn [const_word]; [|reflexivity].
  unfold BorrowModel.all_ones, BorrowModel.W.
  rewrite N.pow_mul_r. change (2 ^ 8) with 256.
  assert (exists q, 256 ^ B - 1 = q * 255) as (q & ->).
  { clear HB. induction B as [|n IH] using N.peano_ind.
    - exists 0. reflexivity.
    - destruct IH as (q & Hq). exists (256 * q + 1).
      rewrite N.pow_succ_r'. pose proof (N.pow_nonzero 256 n ltac:(lia)). lia. }
  rewrite N.div_mul by lia. lia.
Qed.

End Bits.
