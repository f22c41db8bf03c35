(** Proofs about floats. *)
From Coq Require Import ZArith QArith Qpower Qabs List Bool String Ascii Lia Psatz.
From Coq Require Import Floats.SpecFloat.
From Verif Require Import IntModel IntSpec FloatModel FloatSpec.
Import ListNotations.
Open Scope Z_scope.

(** * Shape of valid floats *)
Lemma digits_bounds m : 2 ^ (Zpos (digits2_pos m) - 1) <= Zpos m < 2 ^ Zpos (digits2_pos m).
Proof.
  induction m as [m IH|m IH|]; cbn [digits2_pos].
  - rewrite Pos2Z.inj_succ. replace (Z.succ (Zpos (digits2_pos m)) - 1) with (Z.succ (Zpos (digits2_pos m) - 1)) by lia.
    rewrite !Z.pow_succ_r by lia. rewrite (Pos2Z.inj_xI m). lia.
  - rewrite Pos2Z.inj_succ. replace (Z.succ (Zpos (digits2_pos m)) - 1) with (Z.succ (Zpos (digits2_pos m) - 1)) by lia.
    rewrite !Z.pow_succ_r by lia. rewrite (Pos2Z.inj_xO m). lia.
  - cbn. lia.
Qed.
Lemma digits_exact m d : 0 < d -> 2 ^ (d - 1) <= Zpos m < 2 ^ d -> Zpos (digits2_pos m) = d.
Proof.
  intros Hd Hm. pose proof (digits_bounds m) as H.
  destruct (Z.lt_trichotomy (Zpos (digits2_pos m)) d) as [L|[E|L]]; [|exact E|]; exfalso.
  - assert (2 ^ Zpos (digits2_pos m) <= 2 ^ (d - 1)) by (apply Z.pow_le_mono_r; lia). lia.
  - assert (2 ^ d <= 2 ^ (Zpos (digits2_pos m) - 1)) by (apply Z.pow_le_mono_r; lia). lia.
Qed.
Lemma valid_shape s m e :
  valid (S754_finite s m e) ->
  Zpos m < 2 ^ 53 /\ -1074 <= e <= 971 /\ (2 ^ 52 <= Zpos m \/ e = -1074).
Proof.
  unfold valid. cbn [valid_binary]. unfold bounded, canonical_mantissa, fexp, emin.
  intros H. apply andb_true_iff in H as [H1 H2]. apply Zeq_bool_eq in H1. apply Zle_bool_imp_le in H2.
  pose proof (digits_bounds m) as [B1 B2]. set (d := Zpos (digits2_pos m)) in *.
  assert (Hd : d <= 53) by lia.
  assert (2 ^ d <= 2 ^ 53) by (apply Z.pow_le_mono_r; lia).
  split; [lia|]. split; [lia|].
  destruct (Z.eq_dec e (-1074)) as [|N]; [right; assumption|left].
  assert (d = 53) by lia. replace (2 ^ 52) with (2 ^ (d - 1)) by (f_equal; lia). exact B1.
Qed.
Lemma shape_valid s m e :
  2 ^ 52 <= Zpos m < 2 ^ 53 -> -1074 <= e <= 971 -> valid (S754_finite s m e).
Proof.
  intros Hm He. unfold valid. cbn [valid_binary]. unfold bounded, canonical_mantissa, fexp, emin.
  rewrite (digits_exact m 53) by (try lia; exact Hm).
  apply andb_true_iff; split; [|apply Zle_imp_le_bool; lia].
  replace (Z.max (53 + e - 53) (3 - 1024 - 53)) with e by lia. apply Zeq_is_eq_bool. reflexivity.
Qed.

(** * Values as fractions *)
Definition sg (s : bool) : Z := if s then -1 else 1.
Lemma pow_pos k : 0 <= k -> 0 < 2 ^ k.
Proof. intros. apply Z.pow_pos_nonneg; lia. Qed.
Lemma qpow_nonneg e : 0 <= e -> ((2 # 1) ^ e == inject_Z (2 ^ e))%Q.
Proof. intros H. change (2 # 1)%Q with (inject_Z 2). symmetry. apply Zpower_Qpower, H. Qed.
Lemma qpow_pos e : (0 < (2 # 1) ^ e)%Q.
Proof. apply Qpower_0_lt. reflexivity. Qed.
(** All values are integers when scaled by [2^1074]. *)
Definition P : Z := 2 ^ 1074.
Definition scaled (f : f64) : Z :=
  match f with S754_finite s m e => sg s * (Zpos m * 2 ^ (e + 1074)) | _ => 0 end.
Lemma P_pos : 0 < P. Proof. apply pow_pos. lia. Qed.
Lemma P_q : (0 < inject_Z P)%Q.
Proof. change (inject_Z 0 < inject_Z P)%Q. rewrite <- Zlt_Qlt. apply P_pos. Qed.
Lemma value_scaled f : valid f -> (value f * inject_Z P == inject_Z (scaled f))%Q.
Proof.
  destruct f as [s|s| |s m e]; intros V; try reflexivity.
  apply valid_shape in V as (_ & He & _). cbn [value scaled]. unfold P.
  rewrite <- (qpow_nonneg 1074) by lia. rewrite <- Qmult_assoc, <- Qpower_plus by discriminate.
  rewrite (qpow_nonneg (e + 1074)) by lia. rewrite <- inject_Z_mult.
  destruct s; cbn [sg].
  - rewrite <- Pos2Z.opp_pos. replace (-1 * (Zpos m * 2 ^ (e + 1074))) with (- Zpos m * 2 ^ (e + 1074)) by lia. reflexivity.
  - rewrite Z.mul_1_l. reflexivity.
Qed.
Lemma q_le (x y : Q) (a b : Z) :
  (x * inject_Z P == inject_Z a -> y * inject_Z P == inject_Z b -> (x <= y <-> (a <= b)%Z))%Q.
Proof.
  intros Ha Hb. rewrite <- (Qmult_le_r x y (inject_Z P) P_q), Ha, Hb, <- Zle_Qle. reflexivity.
Qed.
Lemma q_lt (x y : Q) (a b : Z) :
  (x * inject_Z P == inject_Z a -> y * inject_Z P == inject_Z b -> (x < y <-> (a < b)%Z))%Q.
Proof.
  intros Ha Hb. rewrite <- (Qmult_lt_r x y (inject_Z P) P_q), Ha, Hb, <- Zlt_Qlt. reflexivity.
Qed.
Lemma q_eq (x y : Q) (a b : Z) :
  (x * inject_Z P == inject_Z a -> y * inject_Z P == inject_Z b -> (x == y <-> a = b))%Q.
Proof.
  intros Ha Hb. split.
  - intros E. rewrite E in Ha. rewrite Ha in Hb. apply inject_Z_injective, Hb.
  - intros ->. rewrite <- Hb in Ha. apply (proj1 (Qmult_inj_r x y (inject_Z P) ltac:(intros E; pose proof P_q as H; rewrite E in H; discriminate))). exact Ha.
Qed.
Lemma s_int n : (inject_Z n * inject_Z P == inject_Z (n * P))%Q.
Proof. rewrite <- inject_Z_mult. reflexivity. Qed.
Lemma s_zero : (0 * inject_Z P == inject_Z 0)%Q.
Proof. reflexivity. Qed.
Lemma s_plus1 n : ((inject_Z n + 1) * inject_Z P == inject_Z ((n + 1) * P))%Q.
Proof. rewrite <- (s_int (n + 1)), inject_Z_plus. reflexivity. Qed.
Lemma s_minus1 n : ((inject_Z n - 1) * inject_Z P == inject_Z ((n - 1) * P))%Q.
Proof. rewrite <- (s_int (n - 1)). unfold Z.sub. rewrite inject_Z_plus. reflexivity. Qed.
Lemma s_abs x a : (x * inject_Z P == inject_Z a -> Qabs x * inject_Z P == inject_Z (Z.abs a))%Q.
Proof.
  intros H. rewrite <- (Qabs_pos (inject_Z P)) by (apply Qlt_le_weak, P_q).
  rewrite <- Qabs_Qmult, H. reflexivity.
Qed.
Lemma s_sub x y a b : (x * inject_Z P == inject_Z a -> y * inject_Z P == inject_Z b -> (x - y) * inject_Z P == inject_Z (a - b))%Q.
Proof.
  intros Ha Hb. unfold Z.sub, Qminus. rewrite inject_Z_plus, inject_Z_opp, <- Ha, <- Hb. ring.
Qed.
Lemma s_half n k : ((inject_Z n + (k # 2)) * inject_Z P == inject_Z (n * P + k * 2 ^ 1073))%Q.
Proof.
  rewrite inject_Z_plus, !inject_Z_mult. unfold P.
  replace (2 ^ 1074) with (2 * 2 ^ 1073) by (rewrite <- Z.pow_succ_r by lia; reflexivity).
  rewrite inject_Z_mult. generalize (inject_Z (2 ^ 1073)). intros p.
  setoid_replace (k # 2)%Q with (inject_Z k * (1 # 2))%Q by (unfold Qeq; cbn; lia). 
  change (inject_Z 2) with (2 # 1)%Q. field.
Qed.

(** * Integral parts *)
Lemma mag_bounds m e :
  -1074 <= e -> mag m e * P <= Zpos m * 2 ^ (e + 1074) < (mag m e + 1) * P.
Proof.
  intros He. unfold mag, P. destruct (Z.leb_spec 0 e) as [H|H].
  - rewrite Z.pow_add_r by lia. pose proof (pow_pos 1074 ltac:(lia)). nia.
  - replace (2 ^ 1074) with (2 ^ (e + 1074) * 2 ^ (- e)) by (rewrite <- Z.pow_add_r by lia; f_equal; lia).
    pose proof (pow_pos (e + 1074) ltac:(lia)). pose proof (pow_pos (- e) ltac:(lia)).
    pose proof (Z.div_mod (Zpos m) (2 ^ (- e)) ltac:(lia)). pose proof (Z.mod_pos_bound (Zpos m) (2 ^ (- e)) ltac:(lia)).
    nia.
Qed.
Lemma mag_nonneg m e : 0 <= mag m e.
Proof.
  unfold mag. destruct (Z.leb_spec 0 e) as [H|H].
  - pose proof (pow_pos e ltac:(lia)). nia.
  - apply Z.div_pos; [lia|apply pow_pos; lia].
Qed.
(** The value of a float rounded towards zero. *)
Definition tz (f : f64) : Z :=
  match f with S754_finite s m e => sg s * mag m e | _ => 0 end.
Lemma toward_zero_iff f n :
  valid f -> (toward_zero (value f) n <-> n = tz f).
Proof.
  intros V. unfold toward_zero.
  pose proof (value_scaled f V) as HV.
  rewrite (q_le _ _ _ _ s_zero HV), (q_le _ _ _ _ HV s_zero), (q_le _ _ _ _ HV (s_int n)),
    (q_le _ _ _ _ (s_int n) HV), (q_lt _ _ _ _ HV (s_plus1 n)), (q_lt _ _ _ _ (s_minus1 n) HV).
  pose proof P_pos as HP. destruct f as [s|s| |s m e]; cbn [tz scaled]; try (split; [intros [H1 H2]; nia|intros ->; lia]).
  apply valid_shape in V as (_ & He & _).
  pose proof (mag_bounds m e ltac:(lia)) as B. pose proof (mag_nonneg m e) as M.
  set (x := Zpos m * 2 ^ (e + 1074)) in *. 
  assert (X : 0 < x) by (unfold x; pose proof (pow_pos (e + 1074) ltac:(lia)); nia).
  destruct s; cbn [sg]; split.
  - intros [_ H]. specialize (H ltac:(lia)). nia.
  - intros ->. split; nia.
  - intros [H _]. specialize (H ltac:(lia)). nia.
  - intros ->. split; nia.
Qed.

(** * Rounding an integer to a float *)
Lemma log2_range n : 0 < n -> 2 ^ Z.log2 n <= n < 2 ^ (Z.log2 n + 1).
Proof. intros H. pose proof (Z.log2_spec n H). rewrite <- Z.add_1_r in *. exact H0. Qed.
Lemma round_small s n :
  0 < n < 2 ^ 53 ->
  exists m e, round_mag s n = S754_finite s m e /\ 2 ^ 52 <= Zpos m < 2 ^ 53 /\ -53 <= e <= 0 /\
              Zpos m * 2 ^ (e + 1074) = n * P.
Proof.
  intros H. unfold round_mag. destruct (Z.leb_spec n 0) as [L|_]; [lia|].
  pose proof (log2_range n ltac:(lia)) as R. pose proof (Z.log2_nonneg n) as N.
  assert (L : Z.log2 n < 53) by (apply Z.log2_lt_pow2; lia). set (d := Z.log2 n) in *.
  destruct (Z.leb_spec (d + 1) 53) as [_|?]; [|lia].
  pose proof (pow_pos (53 - (d + 1)) ltac:(lia)) as Q.
  assert (E : Zpos (Z.to_pos (n * 2 ^ (53 - (d + 1)))) = n * 2 ^ (53 - (d + 1))) by (apply Z2Pos.id; nia).
  exists (Z.to_pos (n * 2 ^ (53 - (d + 1)))), (d + 1 - 53). rewrite E.
  split; [reflexivity|]. split; [|split; [lia|]].
  - replace (2 ^ 52) with (2 ^ d * 2 ^ (53 - (d + 1))) by (rewrite <- Z.pow_add_r by lia; f_equal; lia).
    replace (2 ^ 53) with (2 ^ (d + 1) * 2 ^ (53 - (d + 1))) by (rewrite <- Z.pow_add_r by lia; f_equal; lia).
    nia.
  - unfold P. rewrite <- Z.mul_assoc, <- Z.pow_add_r by lia. f_equal. f_equal. lia.
Qed.
Lemma round_large s n :
  2 ^ 53 <= n < 2 ^ 1000 ->
  exists m e K q q',
    round_mag s n = S754_finite s m e /\ 2 ^ 52 <= Zpos m < 2 ^ 53 /\ 0 < e <= 971 /\
    K = Z.log2 n - 52 /\ 0 < K /\ q = n / 2 ^ K /\ 2 ^ 52 <= q /\
    Zpos m * 2 ^ e = q' * 2 ^ K /\
    2 * Z.abs (q' * 2 ^ K - n) <= 2 ^ K /\ Z.abs (q' * 2 ^ K - n) <= n - q * 2 ^ K /\
    (2 * Z.abs (q' * 2 ^ K - n) = 2 ^ K -> Z.even (Zpos m) = true).
Proof.
  intros H. unfold round_mag. destruct (Z.leb_spec n 0) as [L|_]; [lia|].
  pose proof (log2_range n ltac:(lia)) as R. pose proof (Z.log2_nonneg n) as N.
  assert (L : 53 <= Z.log2 n) by (apply Z.log2_le_pow2; lia).
  assert (L' : Z.log2 n < 1000) by (apply Z.log2_lt_pow2; lia).
  destruct H as [H _].
  set (d := Z.log2 n) in *.
  destruct (Z.leb_spec (d + 1) 53) as [?|_]; [lia|].
  cbv zeta. replace (d + 1 - 53) with (d - 52) by lia. set (K := d - 52).
  pose proof (pow_pos K ltac:(lia)) as PK.
  pose proof (Z.div_mod n (2 ^ K) ltac:(lia)) as DM. pose proof (Z.mod_pos_bound n (2 ^ K) PK) as MB.
  set (q := n / 2 ^ K) in *. set (r := n mod 2 ^ K) in *.
  assert (Q1 : 2 ^ 52 <= q).
  { apply Z.div_le_lower_bound; [lia|]. rewrite Z.mul_comm, <- Z.pow_add_r by lia.
    replace (52 + K) with d by lia. lia. }
  assert (Q2 : q < 2 ^ 53).
  { apply Z.div_lt_upper_bound; [lia|]. rewrite <- Z.pow_add_r by lia.
    replace (K + 53) with (d + 1) by lia. lia. }
  set (up := (2 ^ K <? 2 * r) || ((2 * r =? 2 ^ K) && Z.odd q)).
  assert (U : (if up then 2 ^ K <= 2 * r else 2 * r <= 2 ^ K) /\
              (2 * r = 2 ^ K -> up = Z.odd q)).
  { unfold up. destruct (Z.ltb_spec (2 ^ K) (2 * r)); cbn [orb]; [split; lia|].
    destruct (Z.eqb_spec (2 * r) (2 ^ K)); cbn [andb]; [destruct (Z.odd q); split; auto; lia|split; lia]. }
  destruct U as [U1 U2].
  assert (A : Z.abs ((if up then q + 1 else q) * 2 ^ K - n) = if up then 2 ^ K - r else r).
  { clear - DM MB. clearbody q r K up. generalize dependent (2 ^ K). intros k DM MB. subst n. destruct up.
    - replace ((q + 1) * k - (k * q + r)) with (k - r) by ring. apply Z.abs_eq. lia.
    - replace (q * k - (k * q + r)) with (- r) by ring. rewrite Z.abs_opp. apply Z.abs_eq. lia. }
  assert (NQ : n - q * 2 ^ K = r) by (clear - DM; rewrite DM; ring).
  exists (if (if up then q + 1 else q) =? 2 ^ 53 then Z.to_pos (2 ^ 52) else Z.to_pos (if up then q + 1 else q)),
    (if (if up then q + 1 else q) =? 2 ^ 53 then K + 1 else K), K, q, (if up then q + 1 else q).
  rewrite A, NQ. clear A NQ.
  destruct (Z.eqb_spec (if up then q + 1 else q) (2 ^ 53)) as [E|NE].
  - destruct up; [|lia]. split; [reflexivity|]. change (Zpos (Z.to_pos (2 ^ 52))) with (2 ^ 52).
    split; [lia|]. split; [lia|]. split; [lia|]. split; [lia|]. split; [reflexivity|]. split; [exact Q1|].
    rewrite E. split; [|split; [|split]].
    + rewrite Z.pow_add_r by lia. lia.
    + lia.
    + lia.
    + reflexivity.
  - assert (E : Zpos (Z.to_pos (if up then q + 1 else q)) = (if up then q + 1 else q)) by (apply Z2Pos.id; destruct up; lia).
    rewrite E. split; [reflexivity|]. split; [destruct up; lia|]. split; [lia|]. split; [lia|]. split; [lia|].
    split; [reflexivity|]. split; [exact Q1|]. split; [reflexivity|].
    destruct up; (split; [lia|split; [lia|]]); intros T.
    + assert (T' : 2 * r = 2 ^ K) by lia. specialize (U2 T').
      rewrite <- Z.negb_odd, Z.odd_add, <- U2. reflexivity.
    + assert (T' : 2 * r = 2 ^ K) by lia. specialize (U2 T').
      rewrite <- Z.negb_odd, <- U2. reflexivity.
Qed.
Lemma round_mag_valid s n : n < 2 ^ 1000 -> valid (round_mag s n) /\ finite (round_mag s n).
Proof.
  intros H. destruct (Z.le_gt_cases n 0) as [L|L].
  { unfold round_mag. destruct (Z.leb_spec n 0); [|lia]. split; [reflexivity|exact Logic.I]. }
  destruct (Z.lt_ge_cases n (2 ^ 53)) as [L2|L2].
  - destruct (round_small s n ltac:(lia)) as (m & e & -> & Hm & He & _).
    split; [apply shape_valid; lia|exact Logic.I].
  - destruct (round_large s n ltac:(lia)) as (m & e & K & q & q' & -> & Hm & He & _).
    split; [apply shape_valid; lia|exact Logic.I].
Qed.
Lemma round_mag_exact s n : 0 <= n < 2 ^ 53 -> scaled (round_mag s n) = sg s * n * P.
Proof.
  intros H. destruct (Z.eq_dec n 0) as [->|N]; [cbn; lia|].
  destruct (round_small s n ltac:(lia)) as (m & e & -> & _ & _ & E). cbn [scaled]. rewrite E. lia.
Qed.

Definition even_last (f : f64) : Prop :=
  match f with S754_finite _ m _ => Z.even (Zpos m) = true | _ => True end.
Lemma round_mag_nearest s n g :
  0 <= n < 2 ^ 1000 -> valid g -> finite g ->
  let f := round_mag s n in
  Z.abs (scaled f - sg s * n * P) <= Z.abs (scaled g - sg s * n * P) /\
  (Z.abs (scaled f - sg s * n * P) = Z.abs (scaled g - sg s * n * P) ->
   scaled f = scaled g \/ even_last f).
Proof.
  intros H V F f. subst f.
  destruct (Z.lt_ge_cases n (2 ^ 53)) as [L2|L2].
  { rewrite (round_mag_exact s n) by lia. rewrite Z.sub_diag. cbn [Z.abs]. split; [lia|].
    intros E. left. lia. }
  destruct (round_large s n ltac:(lia)) as (m & e & K & q & q' & Hf & Hm & He & HK & K0 & Hq & Q & M & D2 & D1 & EV).
  rewrite Hf. cbn [scaled even_last]. destruct H as [H _].
  pose proof P_pos as HP. pose proof (pow_pos K ltac:(lia)) as PK.
  replace (Zpos m * 2 ^ (e + 1074)) with (q' * 2 ^ K * P) by (rewrite <- M; unfold P; rewrite Z.pow_add_r by lia; ring).
  set (u := 2 ^ K) in *.
  assert (Qn : q * u <= n) by (rewrite Hq; unfold u; rewrite Z.mul_comm; apply Z.mul_div_le; lia).
  assert (A : Z.abs (sg s * (q' * u * P) - sg s * n * P) = Z.abs (q' * u - n) * P).
  { replace (sg s * (q' * u * P) - sg s * n * P) with (sg s * (q' * u - n) * P) by ring.
    rewrite !Z.abs_mul. replace (Z.abs (sg s)) with 1 by (destruct s; reflexivity). rewrite (Z.abs_eq P) by lia. lia. }
  rewrite A. clear A Hf.
  (* the other float, with the sign of the first factored out *)
  assert (B : exists G, scaled g = sg s * G /\ Z.abs (scaled g - sg s * n * P) = Z.abs (G - n * P) /\
                        (G <= 0 \/ exists m' e', g = S754_finite s m' e' /\ G = Zpos m' * 2 ^ (e' + 1074))).
  { exists (sg s * scaled g). repeat split.
    - destruct s; cbn [sg]; lia.
    - replace (scaled g - sg s * n * P) with (sg s * (sg s * scaled g - n * P)) by (destruct s; cbn [sg]; lia).
      rewrite Z.abs_mul. destruct s; cbn [sg]; lia.
    - destruct g as [s'|s'| |s' m' e']; cbn [scaled]; try (left; lia); try contradiction.
      pose proof V as V'. apply valid_shape in V' as (_ & He' & _).
      pose proof (pow_pos (e' + 1074) ltac:(lia)).
      destruct s, s'; cbn [sg]; try (left; nia); right; exists m', e'; split; auto; lia. }
  destruct B as (G & HG & -> & B). rewrite HG.
  destruct B as [B|(m' & e' & -> & B)].
  { split; [nia|]. intros E. exfalso. nia. }
  apply valid_shape in V as (Hm' & He' & _).
  destruct (Z.lt_ge_cases e' K) as [C|C].
  - (* smaller exponent: below the binade *)
    assert (X : G < q * u * P).
    { rewrite B. apply Z.lt_le_trans with (2 ^ 53 * 2 ^ (e' + 1074)).
      - pose proof (pow_pos (e' + 1074) ltac:(lia)). nia.
      - apply Z.le_trans with (2 ^ 52 * u * P); [|nia].
        unfold u, P. rewrite <- Z.mul_assoc, <- !Z.pow_add_r by lia. apply Z.pow_le_mono_r; lia. }
    split; [nia|]. intros E. exfalso. nia.
  - (* a multiple of the unit *)
    assert (X : exists j, G = j * u * P).
    { exists (Zpos m' * 2 ^ (e' - K)). rewrite B. unfold u, P. rewrite <- !Z.mul_assoc, <- !Z.pow_add_r by lia.
      f_equal. f_equal. lia. }
    destruct X as (j & ->).
    destruct (Z.eq_dec j q') as [->|NE].
    + split; [nia|]. intros _. left. reflexivity.
    + assert (Y : u <= Z.abs (j * u - q' * u)).
      { rewrite <- Z.mul_sub_distr_r, Z.abs_mul, (Z.abs_eq u) by lia. nia. }
      assert (W : u <= 2 * Z.abs (j * u - n)) by lia.
      replace (Z.abs (j * u * P - n * P)) with (Z.abs (j * u - n) * P)
        by (rewrite <- Z.mul_sub_distr_r, Z.abs_mul, (Z.abs_eq P) by lia; reflexivity).
      split; [nia|]. intros E. right. apply EV. nia.
Qed.
Lemma nearest_even_sg s n :
  0 <= n < 2 ^ 1000 -> nearest_even (sg s * n) (round_mag s n).
Proof.
  intros H. destruct (round_mag_valid s n ltac:(lia)) as [V F]. split; [exact V|]. split; [exact F|].
  intros g Vg Fg. destruct (round_mag_nearest s n g H Vg Fg) as [A B].
  pose proof (s_abs _ _ (s_sub _ _ _ _ (value_scaled _ V) (s_int (sg s * n)))) as HF.
  pose proof (s_abs _ _ (s_sub _ _ _ _ (value_scaled _ Vg) (s_int (sg s * n)))) as HG.
  rewrite (q_le _ _ _ _ HF HG), (q_eq _ _ _ _ HF HG), (q_eq _ _ _ _ (value_scaled _ V) (value_scaled _ Vg)).
  split; [exact A|exact B].
Qed.

(** * Comparing floats *)
Lemma scaled_range s m e :
  valid (S754_finite s m e) ->
  0 < Zpos m * 2 ^ (e + 1074) < 2 ^ 53 * 2 ^ (e + 1074) /\
  (e <> -1074 -> 2 ^ 52 * 2 ^ (e + 1074) <= Zpos m * 2 ^ (e + 1074)).
Proof.
  intros V. apply valid_shape in V as (Hm & He & L). pose proof (pow_pos (e + 1074) ltac:(lia)).
  split; [nia|]. intros N. destruct L as [L|L]; [nia|contradiction].
Qed.
Lemma mag_compare m1 e1 m2 e2 s1 s2 :
  valid (S754_finite s1 m1 e1) -> valid (S754_finite s2 m2 e2) ->
  (match Z.compare e1 e2 with Lt => Lt | Gt => Gt | Eq => Pcompare m1 m2 Eq end) =
  Z.compare (Zpos m1 * 2 ^ (e1 + 1074)) (Zpos m2 * 2 ^ (e2 + 1074)).
Proof.
  intros V1 V2. pose proof (scaled_range _ _ _ V1) as [R1 L1]. pose proof (scaled_range _ _ _ V2) as [R2 L2].
  apply valid_shape in V1 as (_ & E1 & _). apply valid_shape in V2 as (_ & E2 & _).
  destruct (Z.compare_spec e1 e2) as [E|E|E].
  - subst e2. rewrite <- Zmult_compare_compat_r by (pose proof (pow_pos (e1 + 1074) ltac:(lia)); lia).
    cbn [Z.compare]. reflexivity.
  - symmetry. apply Z.compare_lt_iff.
    assert (2 ^ 53 * 2 ^ (e1 + 1074) <= 2 ^ 52 * 2 ^ (e2 + 1074)) by (rewrite <- !Z.pow_add_r by lia; apply Z.pow_le_mono_r; lia).
    specialize (L2 ltac:(lia)). lia.
  - symmetry. apply Z.compare_gt_iff.
    assert (2 ^ 53 * 2 ^ (e2 + 1074) <= 2 ^ 52 * 2 ^ (e1 + 1074)) by (rewrite <- !Z.pow_add_r by lia; apply Z.pow_le_mono_r; lia).
    specialize (L1 ltac:(lia)). lia.
Qed.
Lemma compare_scaled f g :
  valid f -> finite f -> valid g -> finite g -> SFcompare f g = Some (Z.compare (scaled f) (scaled g)).
Proof.
  intros V1 F1 V2 F2.
  destruct f as [s1|s1| |s1 m1 e1]; try contradiction; destruct g as [s2|s2| |s2 m2 e2]; try contradiction;
    cbn [SFcompare scaled].
  - reflexivity.
  - pose proof (scaled_range _ _ _ V2) as [R2 _]. f_equal. symmetry.
    destruct s2; cbn [sg]; [apply Z.compare_gt_iff|apply Z.compare_lt_iff]; lia.
  - pose proof (scaled_range _ _ _ V1) as [R1 _]. f_equal. symmetry.
    destruct s1; cbn [sg]; [apply Z.compare_lt_iff|apply Z.compare_gt_iff]; lia.
  - pose proof (scaled_range _ _ _ V1) as [R1 _]. pose proof (scaled_range _ _ _ V2) as [R2 _].
    pose proof (mag_compare m1 e1 m2 e2 s1 s2 V1 V2) as C. f_equal.
    destruct s1, s2; cbn [sg].
    + replace (match Z.compare e1 e2 with Lt => Gt | Gt => Lt | Eq => CompOpp (Pcompare m1 m2 Eq) end)
        with (CompOpp (match Z.compare e1 e2 with Lt => Lt | Gt => Gt | Eq => Pcompare m1 m2 Eq end))
        by (destruct (Z.compare e1 e2); reflexivity).
      rewrite C, !Z.mul_opp_l, !Z.mul_1_l, <- Z.compare_opp, Z.compare_antisym, CompOpp_involutive || idtac.
      rewrite C. replace (-1 * (Zpos m1 * 2 ^ (e1 + 1074))) with (- (Zpos m1 * 2 ^ (e1 + 1074))) by lia.
      replace (-1 * (Zpos m2 * 2 ^ (e2 + 1074))) with (- (Zpos m2 * 2 ^ (e2 + 1074))) by lia.
      rewrite <- Z.compare_opp. symmetry. apply Z.compare_antisym.
    + symmetry. apply Z.compare_lt_iff. lia.
    + symmetry. apply Z.compare_gt_iff. lia.
    + rewrite C, !Z.mul_1_l. reflexivity.
Qed.
Lemma cmp_f64_spec op x y :
  valid x -> finite x -> valid y -> finite y -> (cmp_f64 op x y = true <-> cmp_spec op (value x) (value y)).
Proof.
  intros V1 F1 V2 F2. pose proof (compare_scaled x y V1 F1 V2 F2) as C. pose proof (compare_scaled y x V2 F2 V1 F1) as C'.
  pose proof (value_scaled x V1) as A. pose proof (value_scaled y V2) as B.
  destruct op; cbn [cmp_f64 cmp_spec]; unfold SFeqb, SFltb, SFleb; rewrite ?C, ?C';
    rewrite ?(q_eq _ _ _ _ A B), ?(q_lt _ _ _ _ A B), ?(q_lt _ _ _ _ B A), ?(q_le _ _ _ _ A B), ?(q_le _ _ _ _ B A);
    match goal with |- context [Z.compare ?a ?b] => destruct (Z.compare_spec a b) end; cbn [negb]; split; intros;
    try discriminate; try lia; try reflexivity.
Qed.
Lemma fcmp_spec op x y :
  valid x -> finite x -> valid y -> finite y -> (emit_fcmp op x y = true <-> cmp_spec op (value x) (value y)).
Proof.
  intros V1 F1 V2 F2. pose proof (compare_scaled x y V1 F1 V2 F2) as C.
  pose proof (value_scaled x V1) as A. pose proof (value_scaled y V2) as B.
  unfold emit_fcmp, fcmp. rewrite C.
  destruct op; cbn [cmp_spec];
    rewrite ?(q_eq _ _ _ _ A B), ?(q_lt _ _ _ _ A B), ?(q_lt _ _ _ _ B A), ?(q_le _ _ _ _ A B), ?(q_le _ _ _ _ B A);
    match goal with |- context [Z.compare ?a ?b] => destruct (Z.compare_spec a b) end; split; intros;
    try discriminate; try lia; try reflexivity.
Qed.

(** * Rounding to an integer *)
Definition mode_spec (mo : rmode) : Q -> Z -> Prop :=
  match mo with Trunc => toward_zero | Floor => floor_of | Ceil => ceil_of | Round => round_of end.
Definition sign (f : f64) : option bool :=
  match f with S754_zero s | S754_infinity s | S754_finite s _ _ => Some s | S754_nan => None end.
Lemma sign_round_mag s n : sign (round_mag s n) = Some s.
Proof.
  unfold round_mag. destruct (n <=? 0); [reflexivity|]. cbv zeta. destruct (_ <=? 53); [reflexivity|].
  destruct (_ =? 2 ^ 53); reflexivity.
Qed.
(** The scaled form of the specifications. *)
Lemma half_P : P = 2 * 2 ^ 1073.
Proof. unfold P. rewrite <- Z.pow_succ_r by lia. reflexivity. Qed.
Lemma mode_scaled mo f n :
  valid f ->
  (mode_spec mo (value f) n <->
   match mo with
   | Trunc => (0 <= scaled f -> n * P <= scaled f < (n + 1) * P) /\ (scaled f <= 0 -> (n - 1) * P < scaled f <= n * P)
   | Floor => n * P <= scaled f < (n + 1) * P
   | Ceil => (n - 1) * P < scaled f <= n * P
   | Round => (0 <= scaled f -> 2 * n * P - P <= 2 * scaled f < 2 * n * P + P) /\
              (scaled f <= 0 -> 2 * n * P - P < 2 * scaled f <= 2 * n * P + P)
   end).
Proof.
  intros V. pose proof (value_scaled f V) as HV.
  destruct mo; cbn [mode_spec]; unfold toward_zero, floor_of, ceil_of, round_of.
  - rewrite (q_le _ _ _ _ s_zero HV), (q_le _ _ _ _ HV s_zero), (q_le _ _ _ _ HV (s_int n)),
      (q_le _ _ _ _ (s_int n) HV), (q_lt _ _ _ _ HV (s_plus1 n)), (q_lt _ _ _ _ (s_minus1 n) HV). reflexivity.
  - rewrite (q_le _ _ _ _ (s_int n) HV), (q_lt _ _ _ _ HV (s_plus1 n)). reflexivity.
  - rewrite (q_le _ _ _ _ HV (s_int n)), (q_lt _ _ _ _ (s_minus1 n) HV). reflexivity.
  - assert (HM : ((inject_Z n - (1 # 2)) * inject_Z P == inject_Z (n * P + -1 * 2 ^ 1073))%Q) by apply (s_half n (-1)).
    rewrite (q_le _ _ _ _ s_zero HV), (q_le _ _ _ _ HV s_zero), (q_le _ _ _ _ HM HV), (q_lt _ _ _ _ HM HV),
      (q_le _ _ _ _ HV (s_half n 1)), (q_lt _ _ _ _ HV (s_half n 1)).
    pose proof half_P as HP. set (h := 2 ^ 1073) in *. rewrite HP. split; intros [A B]; split; intros; lia.
Qed.
Lemma round_int_spec mo f :
  valid f -> finite f ->
  exists n, mode_spec mo (value f) n /\ valid (round_int mo f) /\ finite (round_int mo f) /\
            scaled (round_int mo f) = n * P /\ sign (round_int mo f) = sign f.
Proof.
  intros V F. pose proof P_pos as HP.
  destruct f as [s|s| |s m e]; try contradiction.
  { exists 0. split; [|repeat split; reflexivity || exact Logic.I].
    apply mode_scaled; [exact V|]. cbn [scaled]. destruct mo; lia. }
  pose proof V as V'. apply valid_shape in V' as (Hm & He & _). cbn [round_int].
  destruct (Z.leb_spec 0 e) as [E|E].
  - exists (sg s * (Zpos m * 2 ^ e)). split; [|repeat split; try assumption; try exact Logic.I].
    + apply mode_scaled; [exact V|]. cbn [scaled].
      replace (sg s * (Zpos m * 2 ^ (e + 1074))) with (sg s * (Zpos m * 2 ^ e) * P)
        by (unfold P; rewrite Z.pow_add_r by lia; ring).
      destruct mo; nia.
    + cbn [scaled]. unfold P. rewrite Z.pow_add_r by lia. ring.
  - set (k := - e). set (q := Zpos m / 2 ^ k). set (r := Zpos m mod 2 ^ k).
    pose proof (pow_pos k ltac:(lia)) as PK.
    pose proof (Z.div_mod (Zpos m) (2 ^ k) ltac:(lia)) as DM. fold q r in DM.
    pose proof (Z.mod_pos_bound (Zpos m) (2 ^ k) PK) as MB. fold r in MB.
    assert (Q0 : 0 <= q) by (apply Z.div_pos; lia).
    assert (Q1 : q < 2 ^ 52).
    { apply Z.div_lt_upper_bound; [lia|]. assert (2 ^ 1 <= 2 ^ k) by (apply Z.pow_le_mono_r; lia). nia. }
    set (n := if carry mo s r k then q + 1 else q).
    assert (N : 0 <= n < 2 ^ 53) by (unfold n; destruct (carry mo s r k); lia).
    exists (sg s * n). destruct (round_mag_valid s n ltac:(lia)) as [V2 F2].
    split; [|split; [exact V2|split; [exact F2|split; [rewrite round_mag_exact by lia; ring|apply sign_round_mag]]]].
    apply mode_scaled; [exact V|]. cbn [scaled].
    assert (S1 : P = 2 ^ k * 2 ^ (e + 1074)) by (unfold P; rewrite <- Z.pow_add_r by lia; f_equal; lia).
    pose proof (pow_pos (e + 1074) ltac:(lia)) as PT. set (T := 2 ^ (e + 1074)) in *. set (u := 2 ^ k) in *.
    rewrite S1. clear S1 HP.
    assert (SC : Zpos m * T = (u * q + r) * T) by (rewrite DM; reflexivity). rewrite SC.
    assert (HC : 0 < u * q + r) by lia.
    clear SC Hm V V2 F2. 
    destruct mo; cbn [carry] in n; unfold n; destruct s; cbn [sg andb negb];
      try destruct (Z.eqb_spec r 0); cbn [andb negb];
      try (fold u; destruct (Z.leb_spec u (2 * r))); try split; try intros; try split; nia.
Qed.

(** * Casts *)
Lemma finite_iff f : is_finite f = true <-> finite f.
Proof. destruct f; cbn; split; auto; discriminate || contradiction. Qed.
Lemma as_u64_clamp f : finite f -> as_u64 f = Z.max 0 (Z.min (tz f) (two64 - 1)).
Proof.
  intros F. destruct f as [s|s| |s m e]; try contradiction; [reflexivity|].
  cbn [as_u64 tz]. pose proof (mag_nonneg m e). unfold two64.
  destruct s; cbn [sg]; lia.
Qed.
Lemma as_i64_clamp f : finite f -> as_i64 f = Z.max i64_min (Z.min (tz f) (two63 - 1)).
Proof.
  intros F. destruct f as [s|s| |s m e]; try contradiction; [reflexivity|].
  cbn [as_i64 tz]. pose proof (mag_nonneg m e). unfold two63, i64_min.
  destruct s; cbn [sg]; lia.
Qed.
Lemma tz_trunc f : valid f -> finite f -> tz (round_int Trunc f) = tz f /\ finite (round_int Trunc f).
Proof.
  intros V F. destruct (round_int_spec Trunc f V F) as (n & Hn & V2 & F2 & S & _).
  apply (toward_zero_iff f n V) in Hn. split; [|exact F2]. rewrite <- Hn. symmetry.
  apply (toward_zero_iff _ n V2). apply (mode_scaled Trunc); [exact V2|]. rewrite S. pose proof P_pos. nia.
Qed.
Lemma get_log_width_ok lw : valid_lw lw -> get_log_width (TBoundedNat lw) = Some lw.
Proof.
  intros [H1 H2]. unfold get_log_width, is_valid_log_width, LOG_WIDTH_BOUND, LOG_WIDTH_MAX.
  rewrite Z.mod_small by lia. destruct (Z.ltb_spec lw (6 + 1)); [reflexivity|lia].
Qed.
Lemma bits_lw lw : valid_lw lw -> 1 <= bits lw <= 64.
Proof.
  unfold valid_lw, bits. intros H.
  assert (C : lw = 0 \/ lw = 1 \/ lw = 2 \/ lw = 3 \/ lw = 4 \/ lw = 5 \/ lw = 6) by lia.
  destruct C as [->|[->|[->|[->|[->|[->| ->]]]]]]; cbn; lia.
Qed.
Lemma lw_bits6 lw : valid_lw lw -> lw <> 6 -> 1 <= bits lw <= 32.
Proof.
  unfold valid_lw, bits. intros H N.
  assert (C : lw = 0 \/ lw = 1 \/ lw = 2 \/ lw = 3 \/ lw = 4 \/ lw = 5) by lia.
  destruct C as [->|[->|[->|[->|[->| ->]]]]]; cbn; lia.
Qed.
Lemma new_u_clamped lw t :
  valid_lw lw ->
  let v := Z.max 0 (Z.min t (two64 - 1)) in
  (new_u lw v = Some (mk_ci lw v) /\ in_u lw v) \/ (new_u lw v = None /\ 2 ^ bits lw <= t).
Proof.
  intros H v. pose proof (bits_lw lw H) as B. unfold new_u, is_valid_log_width, LOG_WIDTH_BOUND, LOG_WIDTH_MAX.
  destruct (Z.ltb_spec lw (6 + 1)) as [_|?]; [|unfold valid_lw in H; lia]. cbn [negb]. unfold in_u. fold (bits lw).
  pose proof (pow_pos (bits lw) ltac:(lia)) as PB.
  destruct (Z.leb_spec lw 5) as [L|L]; cbn [andb].
  - destruct (Z.leb_spec (2 ^ bits lw) v) as [L2|L2]; [right|left].
    + split; [reflexivity|]. unfold v, two64 in L2. lia.
    + split; [reflexivity|]. unfold v in *. lia.
  - left. split; [reflexivity|]. assert (lw = 6) by (unfold valid_lw in H; lia). subst lw.
    unfold v, two64, bits. change (2 ^ 2 ^ 6) with (2 ^ 64). lia.
Qed.
Lemma new_s_clamped lw t :
  valid_lw lw ->
  let v := Z.max i64_min (Z.min t (two63 - 1)) in
  (exists w, new_s lw v = Some (mk_ci lw w) /\ in_s lw v /\ repr_s lw v w) \/
  (new_s lw v = None /\ ~ in_s lw t /\ lw <> 6).
Proof.
  intros H v. pose proof (bits_lw lw H) as B. unfold new_s, is_valid_log_width, LOG_WIDTH_BOUND, LOG_WIDTH_MAX.
  destruct (Z.ltb_spec lw (6 + 1)) as [_|?]; [|unfold valid_lw in H; lia]. cbn [negb]. cbv zeta. unfold in_s. fold (bits lw).
  pose proof (pow_pos (bits lw - 1) ltac:(lia)) as PB.
  assert (R : - 2 ^ (bits lw - 1) <= v < 2 ^ (bits lw - 1) ->
              repr_s lw v (to_u64 (if (0 <=? v) || (lw =? 6) then v else v + 2 ^ bits lw))).
  { intros R. unfold repr_s, in_u, signed, to_u64, two64.
    assert (E : 2 ^ bits lw = 2 * 2 ^ (bits lw - 1)) by (rewrite <- Z.pow_succ_r by lia; f_equal; lia).
    assert (L64 : 2 ^ bits lw <= 2 ^ 64) by (apply Z.pow_le_mono_r; lia).
    assert (X : (if (0 <=? v) || (lw =? 6) then v else v + 2 ^ bits lw) mod 2 ^ 64 =
                if 0 <=? v then v else v + 2 ^ bits lw).
    { destruct (Z.leb_spec 0 v); cbn [orb]; [apply Z.mod_small; lia|].
      destruct (Z.eqb_spec lw 6) as [->|N].
      - change (bits 6) with 64. rewrite <- (Z_mod_plus_full v 1 (2 ^ 64)), Z.mul_1_l. apply Z.mod_small.
        change (bits 6 - 1) with 63 in R. lia.
      - apply Z.mod_small. lia. }
    rewrite X. fold (bits lw). set (h := 2 ^ (bits lw - 1)) in *. rewrite E in *.
    destruct (Z.leb_spec 0 v).
    - split; [lia|]. rewrite Z.mod_small by lia. 
      destruct (Z.testbit v (bits lw - 1)) eqn:T; [|cbn; lia]. exfalso.
      apply Z.testbit_true in T; [|lia]. fold h in T. rewrite Z.div_small in T by lia. discriminate.
    - split; [lia|].
      assert (D : (v + 2 * h) / h = 1) by (symmetry; apply Z.div_unique with (v + h); lia).
      assert (M : (v + 2 * h) mod h = v + h) by (symmetry; apply Z.mod_unique with 1; lia).
      rewrite M.
      destruct (Z.testbit (v + 2 * h) (bits lw - 1)) eqn:T; [cbn; lia|]. exfalso.
      apply Z.testbit_false in T; [|lia]. fold h in T. rewrite D in T. discriminate. }
  destruct (Z.leb_spec lw 5) as [L|L]; cbn [andb].
  - assert (B32 : 1 <= bits lw <= 32) by (apply lw_bits6; [exact H|lia]).
    assert (2 ^ (bits lw - 1) <= 2 ^ 31) by (apply Z.pow_le_mono_r; lia).
    destruct (Z.leb_spec (2 ^ (bits lw - 1)) v) as [L2|L2]; cbn [orb].
    { right. split; [reflexivity|]. split; [unfold v, two63, i64_min in L2; lia|lia]. }
    destruct (Z.ltb_spec v (- 2 ^ (bits lw - 1))) as [L3|L3].
    { right. split; [reflexivity|]. split; [unfold v, two63, i64_min in L3; lia|lia]. }
    left. eexists. split; [reflexivity|]. split; [lia|]. apply R. lia.
  - left. assert (lw = 6) by (unfold valid_lw in H; lia). subst lw.
    change (bits 6 - 1) with 63 in *.
    assert (V : - 2 ^ 63 <= v < 2 ^ 63) by (unfold v, two63, i64_min; lia).
    eexists. split; [reflexivity|]. split; [exact V|]. apply R. exact V.
Qed.

(** * Folding of truncations *)
Definition too_big_u (lw : Z) (f : f64) : Prop :=
  exists n, toward_zero (value f) n /\ (n < 0 \/ (lw = 6 /\ 2 ^ 64 <= n)).
Definition too_big_s (lw : Z) (f : f64) : Prop :=
  exists n, toward_zero (value f) n /\ lw = 6 /\ ~ in_s 6 n.
Lemma fold_trunc_out convert lw p f :
  valid_lw lw ->
  fold_trunc [TBoundedNat lw] [(p, FF64 f)] convert =
  Folded [(0, if is_finite f then match convert f lw with Some c => FSum 1 [FInt c] | None => FSum 0 [FErr 0] end
              else FSum 0 [FErr 0])].
Proof.
  intros H. unfold fold_trunc, single_f64, single, or_nofold. rewrite (get_log_width_ok lw H). reflexivity.
Qed.
Lemma tz_unique f n n' : valid f -> toward_zero (value f) n -> toward_zero (value f) n' -> n = n'.
Proof. intros V A B. apply (toward_zero_iff f n V) in A. apply (toward_zero_iff f n' V) in B. congruence. Qed.
Lemma trunc_u_fold lw p f :
  valid_lw lw -> valid f ->
  exists v, fold_trunc_u [TBoundedNat lw] [(p, FF64 f)] = Folded [(0, v)] /\
            (trunc_spec false lw f v <-> ~ (finite f /\ too_big_u lw f)).
Proof.
  intros H V. eexists. split; [apply fold_trunc_out, H|].
  destruct (is_finite f) eqn:F.
  2:{ assert (NF : ~ finite f) by (intros X; apply finite_iff in X; congruence).
      split; [intros _ [X _]; contradiction|intros _]. right. split; [|exists 0; reflexivity].
      intros (n & X & _). contradiction. }
  apply finite_iff in F. destruct (tz_trunc f V F) as [T F2].
  rewrite (as_u64_clamp _ F2), T.
  assert (TZ : toward_zero (value f) (tz f)) by (apply toward_zero_iff; [exact V|reflexivity]).
  set (t := tz f) in *. pose proof (bits_lw lw H) as B. pose proof (pow_pos (bits lw) ltac:(lia)) as PB.
  assert (L64 : 2 ^ bits lw <= 2 ^ 64) by (apply Z.pow_le_mono_r; lia).
  assert (BIG : too_big_u lw f <-> t < 0 \/ (lw = 6 /\ 2 ^ 64 <= t)).
  { split; [intros (n & X & Y); rewrite (tz_unique f n t V X TZ) in Y; exact Y|intros Y; exists t; split; assumption]. }
  rewrite BIG. destruct (new_u_clamped lw t H) as [[E I]|[E I]]; rewrite E.
  - split.
    + intros [(n & w & _ & X & Y & [_ Z] & W)|[_ (s & W)]]; [|discriminate].
      injection W as W. rewrite (tz_unique f n t V X TZ) in *.
      intros [_ C]. cbn in Y. unfold in_u in *. unfold two64 in *. lia.
    + intros C. left. exists t, t. 
      assert (R : 0 <= t < 2 ^ bits lw).
      { unfold in_u, two64 in *. destruct (Z.lt_ge_cases t 0); [exfalso; apply C; split; [exact F|left; assumption]|].
        destruct (Z.eq_dec lw 6) as [->|N].
        - change (bits 6) with 64 in *. destruct (Z.lt_ge_cases t (2 ^ 64)); [lia|].
          exfalso; apply C; split; [exact F|right; split; [reflexivity|assumption]].
        - pose proof (lw_bits6 lw H N). assert (2 ^ bits lw <= 2 ^ 32) by (apply Z.pow_le_mono_r; lia). lia. }
      split; [exact F|]. split; [exact TZ|]. split; [exact R|]. split; [split; [exact R|reflexivity]|].
      unfold two64. replace (Z.max 0 (Z.min t (2 ^ 64 - 1))) with t by lia. reflexivity.
  - split.
    + intros _ [_ C]. destruct C as [C|[-> C]]; [lia|].
      unfold new_u in E. cbn in E. discriminate.
    + intros _. right. split; [|exists 0; reflexivity].
      intros (n & _ & X & Y). rewrite (tz_unique f n t V X TZ) in Y. unfold in_type, in_u in Y. lia.
Qed.
Lemma trunc_s_fold lw p f :
  valid_lw lw -> valid f ->
  exists v, fold_trunc_s [TBoundedNat lw] [(p, FF64 f)] = Folded [(0, v)] /\
            (trunc_spec true lw f v <-> ~ (finite f /\ too_big_s lw f)).
Proof.
  intros H V. eexists. split; [apply fold_trunc_out, H|].
  destruct (is_finite f) eqn:F.
  2:{ assert (NF : ~ finite f) by (intros X; apply finite_iff in X; congruence).
      split; [intros _ [X _]; contradiction|intros _]. right. split; [|exists 0; reflexivity].
      intros (n & X & _). contradiction. }
  apply finite_iff in F. destruct (tz_trunc f V F) as [T F2].
  rewrite (as_i64_clamp _ F2), T.
  assert (TZ : toward_zero (value f) (tz f)) by (apply toward_zero_iff; [exact V|reflexivity]).
  set (t := tz f) in *. pose proof (bits_lw lw H) as B.
  assert (BIG : too_big_s lw f <-> lw = 6 /\ ~ in_s 6 t).
  { split; [intros (n & X & Y); rewrite (tz_unique f n t V X TZ) in Y; exact Y|intros Y; exists t; split; assumption]. }
  rewrite BIG. destruct (new_s_clamped lw t H) as [(w & E & I & R)|(E & I & N)]; rewrite E.
  - split.
    + intros [(n & w' & _ & X & Y & Z & W)|[_ (s & W)]]; [|discriminate].
      rewrite (tz_unique f n t V X TZ) in *. intros [_ [-> C]]. contradiction.
    + intros C. left. exists t, w.
      assert (I' : in_s lw t).
      { destruct (Z.eq_dec lw 6) as [->|N].
        - destruct (Z_lt_le_dec t (2 ^ 63)) as [A|A], (Z_lt_le_dec t (- 2 ^ 63)) as [A'|A'];
            try (exfalso; apply C; split; [exact F|split; [reflexivity|unfold in_s; change (bits 6 - 1) with 63; lia]]).
          unfold in_s. change (bits 6 - 1) with 63. lia.
        - pose proof (lw_bits6 lw H N). unfold in_s, two63, i64_min in *.
          assert (2 ^ (bits lw - 1) <= 2 ^ 31) by (apply Z.pow_le_mono_r; lia).
          pose proof (pow_pos (bits lw - 1) ltac:(lia)). lia. }
      assert (EQ : Z.max i64_min (Z.min t (two63 - 1)) = t).
      { unfold in_s, two63, i64_min in *.
        assert (2 ^ (bits lw - 1) <= 2 ^ 63) by (apply Z.pow_le_mono_r; lia). lia. }
      rewrite EQ in R. split; [exact F|]. split; [exact TZ|]. split; [exact I'|]. split; [exact R|]. reflexivity.
  - split.
    + intros _ [_ [-> C]]. contradiction.
    + intros _. right. split; [|exists 0; reflexivity].
      intros (n & _ & X & Y). rewrite (tz_unique f n t V X TZ) in Y. contradiction.
Qed.

(** * Folding of conversions to floats *)
Lemma u64_nearest n : 0 <= n < 2 ^ 64 -> nearest_even n (u64_to_f64 n).
Proof.
  intros H. unfold u64_to_f64. replace n with (sg false * n) at 1 by (cbn [sg]; lia). apply nearest_even_sg. lia.
Qed.
Lemma i64_nearest n : - 2 ^ 63 <= n < 2 ^ 63 -> nearest_even n (i64_to_f64 n).
Proof.
  intros H. unfold i64_to_f64. destruct (Z.ltb_spec n 0).
  - replace n with (sg true * (- n)) at 1 by (cbn [sg]; lia). apply nearest_even_sg. lia.
  - replace n with (sg false * n) at 1 by (cbn [sg]; lia). apply nearest_even_sg. lia.
Qed.
Lemma i64_exact n : - 2 ^ 53 < n < 2 ^ 53 -> scaled (i64_to_f64 n) = n * P.
Proof.
  intros H. unfold i64_to_f64. destruct (Z.ltb_spec n 0); rewrite round_mag_exact by lia; cbn [sg]; lia.
Qed.
Lemma u64_exact n : 0 <= n < 2 ^ 53 -> scaled (u64_to_f64 n) = n * P.
Proof. intros H. unfold u64_to_f64. rewrite round_mag_exact by lia. cbn [sg]; lia. Qed.

(** * Lowering of truncations *)
Definition lo_of (sgn : bool) (lw : Z) : Z := if sgn then - 2 ^ (bits lw - 1) else 0.
Definition hi_of (sgn : bool) (lw : Z) : Z := if sgn then 2 ^ (bits lw - 1) else 2 ^ bits lw.
(** The floats that the bounds check of the emitted code refuses although their value, rounded
    towards zero, is of the type. *)
Definition gap (sgn : bool) (lw : Z) (f : f64) : Prop :=
  ((inject_Z (lo_of sgn lw) - 1 < value f /\ value f < inject_Z (lo_of sgn lw)) \/
   (lw <> 6%Z /\ inject_Z (hi_of sgn lw) - 1 <= value f /\ value f < inject_Z (hi_of sgn lw)))%Q.
(** The value a program sees in the result. *)
Definition lowered (lw : Z) (r : trunc_result) : option fval :=
  match r with
  | TErr s => Some (FSum 0 [FErr s])
  | TOk (Some b) => Some (FSum 1 [FInt (mk_ci lw b)])
  | TOk None => None
  end.
Lemma in_type_range sgn lw n : in_type sgn lw n <-> lo_of sgn lw <= n < hi_of sgn lw.
Proof. destruct sgn; reflexivity. Qed.
Definition flt_max (sgn : bool) (lw : Z) : f64 :=
  if sgn then i64_to_f64 (2 ^ (bits lw - 1) - 1) else u64_to_f64 (2 ^ bits lw - 1).
Definition flt_min (sgn : bool) (lw : Z) : f64 :=
  if sgn then i64_to_f64 (- 2 ^ (bits lw - 1)) else S754_zero false.
Lemma flt_bounds sgn lw :
  valid_lw lw ->
  (valid (flt_max sgn lw) /\ finite (flt_max sgn lw) /\
   scaled (flt_max sgn lw) = (if lw =? 6 then hi_of sgn lw else hi_of sgn lw - 1) * P) /\
  (valid (flt_min sgn lw) /\ finite (flt_min sgn lw) /\ scaled (flt_min sgn lw) = lo_of sgn lw * P).
Proof.
  intros H. destruct (Z.eqb_spec lw 6) as [->|N].
  - destruct sgn; (split; [|split; [vm_compute; reflexivity|split; [vm_compute; exact Logic.I|]]]);
      [split; [vm_compute; reflexivity|split; [vm_compute; exact Logic.I|]]| |split; [vm_compute; reflexivity|split; [vm_compute; exact Logic.I|]]|];
      unfold P; vm_compute; reflexivity.
  - pose proof (lw_bits6 lw H N) as B.
    assert (2 ^ (bits lw - 1) <= 2 ^ 31) by (apply Z.pow_le_mono_r; lia).
    assert (2 ^ bits lw <= 2 ^ 32) by (apply Z.pow_le_mono_r; lia).
    pose proof (pow_pos (bits lw - 1) ltac:(lia)). pose proof (pow_pos (bits lw) ltac:(lia)).
    unfold flt_max, flt_min, hi_of, lo_of. destruct sgn.
    + destruct (i64_nearest (2 ^ (bits lw - 1) - 1) ltac:(lia)) as (V & F & _).
      destruct (i64_nearest (- 2 ^ (bits lw - 1)) ltac:(lia)) as (V' & F' & _).
      rewrite !i64_exact by lia. auto.
    + destruct (u64_nearest (2 ^ bits lw - 1) ltac:(lia)) as (V & F & _).
      rewrite !u64_exact by lia. repeat split; auto.
Qed.
Lemma emit_trunc_eq sgn lw w f :
  emit_trunc sgn lw w f =
  if fcmp OLT f (flt_max sgn lw) && fcmp OLE (flt_min sgn lw) f then TOk (fptoi sgn w f) else TErr 2.
Proof. reflexivity. Qed.
Lemma emit_trunc_exact sgn lw f :
  3 <= lw <= 6 -> valid f ->
  exists v, lowered lw (emit_trunc sgn lw (2 ^ lw) f) = Some v /\
            (trunc_spec sgn lw f v <-> ~ (finite f /\ gap sgn lw f)).
Proof.
  intros L V. assert (H : valid_lw lw) by (unfold valid_lw; lia).
  destruct (flt_bounds sgn lw H) as [(VM & FM & SM) (Vm & Fm & Sm)]. rewrite emit_trunc_eq.
  destruct (is_finite f) eqn:F.
  2:{ assert (NF : ~ finite f) by (intros X; apply finite_iff in X; congruence).
      assert (E : fcmp OLT f (flt_max sgn lw) && fcmp OLE (flt_min sgn lw) f = false).
      { unfold fcmp. destruct f as [s|s| |s m e]; try discriminate F; [|reflexivity].
        destruct (flt_max sgn lw) as [s1|s1| |s1 m1 e1]; try contradiction;
          destruct (flt_min sgn lw) as [s2|s2| |s2 m2 e2]; try contradiction; destruct s; reflexivity. }
      rewrite E. eexists. split; [reflexivity|]. split; [intros _ [X _]; contradiction|intros _].
      right. split; [|exists 2; reflexivity]. intros (n & X & _). contradiction. }
  apply finite_iff in F.
  assert (TZ : toward_zero (value f) (tz f)) by (apply toward_zero_iff; [exact V|reflexivity]).
  pose proof (proj1 (mode_scaled Trunc f (tz f) V) TZ) as TS. cbv iota beta in TS.
  pose proof (value_scaled f V) as HV.
  assert (GAP : gap sgn lw f <-> ((lo_of sgn lw - 1) * P < scaled f < lo_of sgn lw * P) \/
                                 (lw <> 6 /\ (hi_of sgn lw - 1) * P <= scaled f < hi_of sgn lw * P)).
  { unfold gap. rewrite (q_lt _ _ _ _ (s_minus1 _) HV), !(q_lt _ _ _ _ HV (s_int _)), (q_le _ _ _ _ (s_minus1 _) HV). reflexivity. }
  setoid_rewrite GAP. clear GAP.
  unfold fcmp. rewrite (compare_scaled f _ V F VM FM), (compare_scaled _ f Vm Fm V F), SM, Sm.
  pose proof P_pos as HP. pose proof (bits_lw lw H) as B.
  assert (LH : lo_of sgn lw <= 0 < hi_of sgn lw).
  { unfold lo_of, hi_of. pose proof (pow_pos (bits lw - 1) ltac:(lia)). pose proof (pow_pos (bits lw) ltac:(lia)). destruct sgn; lia. }
  set (x := scaled f) in *. set (t := tz f) in *.
  assert (FIT : in_type sgn lw t <-> (lo_of sgn lw - 1) * P < x < hi_of sgn lw * P).
  { rewrite in_type_range. destruct (Z.le_ge_cases 0 x) as [C|C].
    - destruct TS as [TS _]. specialize (TS C). split; intros; nia.
    - destruct TS as [_ TS]. specialize (TS ltac:(lia)). split; intros; nia. }
  set (M := if lw =? 6 then hi_of sgn lw else hi_of sgn lw - 1) in *.
  assert (HM : M = hi_of sgn lw /\ lw = 6 \/ M = hi_of sgn lw - 1 /\ lw <> 6).
  { unfold M. destruct (Z.eqb_spec lw 6); auto. }
  assert (OK : (match (x ?= M * P) with Lt => true | _ => false end) &&
               (match (lo_of sgn lw * P ?= x) with Lt | Eq => true | _ => false end) = true <->
               lo_of sgn lw * P <= x < M * P).
  { destruct (Z.compare_spec x (M * P)), (Z.compare_spec (lo_of sgn lw * P) x); cbn [andb]; split; intros; try discriminate; try lia; try reflexivity. }
  destruct ((match (x ?= M * P) with Lt => true | _ => false end) &&
               (match (lo_of sgn lw * P ?= x) with Lt | Eq => true | _ => false end)) eqn:E.
  - pose proof (proj1 OK eq_refl) as R. clear OK E.
    assert (I : in_type sgn lw t) by (apply FIT; destruct HM as [[-> _]|[-> _]]; nia).
    assert (EX : exists w, fptoi sgn (2 ^ lw) f = Some w /\ stored sgn lw t w).
    { clear -I F V B. unfold fptoi. fold (bits lw).
      assert (ST : if sgn then (- 2 ^ (bits lw - 1) <=? t) && (t <? 2 ^ (bits lw - 1)) = true /\ repr_s lw t (t mod 2 ^ bits lw)
                   else (0 <=? t) && (t <? 2 ^ bits lw) = true).
      { destruct sgn.
        - cbn in I. unfold in_s in I. split.
          + apply andb_true_iff; split; [apply Z.leb_le|apply Z.ltb_lt]; lia.
          + pose proof (pow_pos (bits lw - 1) ltac:(lia)) as PB.
            assert (E : 2 ^ bits lw = 2 * 2 ^ (bits lw - 1)) by (rewrite <- Z.pow_succ_r by lia; f_equal; lia).
            unfold repr_s, in_u, signed. fold (bits lw). split; [apply Z.mod_pos_bound; lia|].
            set (h := 2 ^ (bits lw - 1)) in *. rewrite E.
            destruct (Z.lt_ge_cases t 0).
            * assert (X : t mod (2 * h) = t + 2 * h) by (symmetry; apply Z.mod_unique with (-1); lia). rewrite X.
              assert (D : (t + 2 * h) / h = 1) by (symmetry; apply Z.div_unique with (t + h); lia).
              assert (M : (t + 2 * h) mod h = t + h) by (symmetry; apply Z.mod_unique with 1; lia).
              rewrite M. destruct (Z.testbit (t + 2 * h) (bits lw - 1)) eqn:T; [lia|]. exfalso.
              apply Z.testbit_false in T; [|lia]. fold h in T. rewrite D in T. discriminate.
            * rewrite (Z.mod_small t (2 * h)) by lia. rewrite Z.mod_small by lia.
              destruct (Z.testbit t (bits lw - 1)) eqn:T; [|lia]. exfalso.
              apply Z.testbit_true in T; [|lia]. fold h in T. rewrite Z.div_small in T by lia. discriminate.
        - cbn in I. unfold in_u in I. apply andb_true_iff; split; [apply Z.leb_le|apply Z.ltb_lt]; lia. }
      destruct f as [s|s| |s m e]; try contradiction.
      - exists 0. split; [reflexivity|]. unfold t in *. cbn [tz] in *. destruct sgn; [|split; [exact I|reflexivity]].
        destruct ST as [_ ST]. rewrite Z.mod_0_l in ST by (pose proof (pow_pos (bits lw) ltac:(lia)); lia). exact ST.
      - replace (if s then - mag m e else mag m e) with t by (unfold t; cbn [tz]; destruct s; cbn [sg]; lia).
        destruct sgn.
        + destruct ST as [-> ST]. eexists. split; [reflexivity|exact ST].
        + rewrite ST. exists t. split; [reflexivity|]. split; [exact I|reflexivity]. }
    destruct EX as (w & -> & ST). eexists. split; [reflexivity|]. split.
    + intros _ [_ G]. destruct HM as [[-> ?]|[-> ?]]; lia.
    + intros _. left. exists t, w. split; [exact F|split; [exact TZ|split; [exact I|split; [exact ST|reflexivity]]]].
  - assert (NOK : ~ lo_of sgn lw * P <= x < M * P) by (intros X; apply OK in X; discriminate).
    eexists. split; [reflexivity|]. split.
    + intros [(n & w & _ & X & Y & _ & W)|[N _]]; [discriminate|].
      intros [_ G]. apply N. exists t. split; [exact F|]. split; [exact TZ|]. apply FIT. nia.
    + intros NG. right. split; [|exists 2; reflexivity].
      intros (n & _ & X & Y). rewrite (tz_unique f n t V X TZ) in Y. apply FIT in Y.
      apply NG. split; [exact F|]. destruct HM as [[HM1 HM2]|[HM1 HM2]]; rewrite HM1 in NOK; [left; lia|].
      destruct (Z.lt_ge_cases x (lo_of sgn lw * P)); [left; lia|right; lia].
Qed.

(** * Decimal notation *)
Lemma read_digit acc d s : 0 <= d <= 9 -> read_digits acc (String (digit d) s) = read_digits (10 * acc + d) s.
Proof.
  intros H. cbn [read_digits]. unfold digit.
  assert (E : Z.of_N (N_of_ascii (ascii_of_N (Z.to_N (48 + d)))) = 48 + d).
  { rewrite N_ascii_embedding by lia. rewrite Z2N.id by lia. reflexivity. }
  rewrite E. replace (48 + d - 48) with d by lia.
  destruct (Z.leb_spec 0 d); [|lia]. destruct (Z.leb_spec d 9); [|lia]. reflexivity.
Qed.
Lemma digit_zero d : 0 <= d <= 9 -> digit d = "0"%char -> d = 0.
Proof.
  intros H E. apply (f_equal N_of_ascii) in E. unfold digit in E. rewrite N_ascii_embedding in E by lia.
  change (N_of_ascii "0") with 48%N in E. lia.
Qed.
Lemma dec_read fuel n acc :
  0 <= n < 10 ^ Z.of_nat fuel -> (0 < fuel)%nat -> read_digits 0 (dec fuel n acc) = read_digits n acc.
Proof.
  revert n acc. induction fuel as [|fuel IH]; intros n acc H L; [lia|]. cbn [dec].
  pose proof (Z.div_mod n 10 ltac:(lia)) as DM. pose proof (Z.mod_pos_bound n 10 ltac:(lia)) as MB.
  destruct (Z.eqb_spec (n / 10) 0) as [E|E].
  - rewrite read_digit by lia. f_equal. lia.
  - assert (F : (0 < fuel)%nat) by (destruct fuel; [cbn in H; assert (n / 10 = 0) by (apply Z.div_small; lia); contradiction|lia]).
    rewrite IH; [|split; [apply Z.div_pos; lia|]|exact F].
    + rewrite read_digit by lia. f_equal. lia.
    + apply Z.div_lt_upper_bound; [lia|]. rewrite Nat2Z.inj_succ, Z.pow_succ_r in H by lia. lia.
Qed.
Lemma dec_head fuel n acc :
  0 < n -> (0 < fuel)%nat -> n < 10 ^ Z.of_nat fuel ->
  exists c s, dec fuel n acc = String c s /\ c <> "0"%char.
Proof.
  revert n acc. induction fuel as [|fuel IH]; intros n acc H L B; [lia|]. cbn [dec].
  pose proof (Z.div_mod n 10 ltac:(lia)) as DM. pose proof (Z.mod_pos_bound n 10 ltac:(lia)) as MB.
  destruct (Z.eqb_spec (n / 10) 0) as [E|E].
  - eexists _, _. split; [reflexivity|]. intros C. apply digit_zero in C; lia.
  - assert (P0 : 0 < n / 10) by (pose proof (Z.div_pos n 10 ltac:(lia) ltac:(lia)); lia).
    apply IH; [exact P0| |].
    + destruct fuel; [cbn in B; assert (n / 10 = 0) by (apply Z.div_small; lia); contradiction|lia].
    + apply Z.div_lt_upper_bound; [lia|]. rewrite Nat2Z.inj_succ, Z.pow_succ_r in B by lia. lia.
Qed.
Lemma u64_decimal n : 0 <= n < 2 ^ 64 -> decimal_nat n (u64_to_string n).
Proof.
  intros H. assert (B : 0 <= n < 10 ^ Z.of_nat 20) by (change (10 ^ Z.of_nat 20) with 100000000000000000000; lia).
  unfold u64_to_string, decimal_nat. rewrite dec_read by (try exact B; lia). split; [reflexivity|].
  destruct (Z.eq_dec n 0) as [->|N].
  - split; [discriminate|]. intros s' E. vm_compute in E. injection E as <-. reflexivity.
  - destruct (dec_head 20 n EmptyString ltac:(lia) ltac:(lia) ltac:(lia)) as (c & s & E & C). rewrite E.
    split; [discriminate|]. intros s' E'. injection E' as E1 _. contradiction.
Qed.
Lemma i64_decimal n : - 2 ^ 63 <= n < 2 ^ 63 -> decimal n (i64_to_string n).
Proof.
  intros H. unfold decimal, i64_to_string. destruct (Z.ltb_spec n 0).
  - eexists. split; [reflexivity|]. apply u64_decimal. lia.
  - apply u64_decimal. lia.
Qed.

(** * Sorting by port *)
Lemma sorted_two {A} (x y : A) cs :
  cs = [(0, x); (1, y)] \/ cs = [(1, y); (0, x)] -> sorted_consts cs = [x; y].
Proof. intros [->| ->]; reflexivity. Qed.

(** * Maximum and minimum *)
Lemma max_spec tie x y :
  valid x -> finite x -> valid y -> finite y ->
  let r := max_f64 tie x y in
  (r = x \/ r = y) /\ (value x <= value r)%Q /\ (value y <= value r)%Q.
Proof.
  intros V1 F1 V2 F2. pose proof (value_scaled x V1) as A. pose proof (value_scaled y V2) as B.
  unfold max_f64. rewrite (compare_scaled x y V1 F1 V2 F2).
  destruct (Z.compare_spec (scaled x) (scaled y)); [destruct tie| |]; cbn zeta;
    (split; [auto|]); split; apply Qle_refl || (apply (q_le _ _ _ _ A B); lia) || (apply (q_le _ _ _ _ B A); lia).
Qed.
Lemma min_spec tie x y :
  valid x -> finite x -> valid y -> finite y ->
  let r := min_f64 tie x y in
  (r = x \/ r = y) /\ (value r <= value x)%Q /\ (value r <= value y)%Q.
Proof.
  intros V1 F1 V2 F2. pose proof (value_scaled x V1) as A. pose proof (value_scaled y V2) as B.
  unfold min_f64. rewrite (compare_scaled x y V1 F1 V2 F2).
  destruct (Z.compare_spec (scaled x) (scaled y)); [destruct tie| |]; cbn zeta;
    (split; [auto|]); split; apply Qle_refl || (apply (q_le _ _ _ _ A B); lia) || (apply (q_le _ _ _ _ B A); lia).
Qed.
