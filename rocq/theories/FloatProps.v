(** Properties of conversions between integers and floats (claim C47) and of float operations
    (claim C48). *)
From Coq Require Import ZArith QArith Qabs List Bool String Ascii Lia.
From Coq Require Import Floats.SpecFloat.
From Verif Require Import IntModel IntSpec IntProofs LlvmSpec FloatModel FloatSpec FloatProofs.
Import ListNotations.
Open Scope Z_scope.

(** * Truncation (C47) *)
(** The folder of [trunc_u] always gives one output.  It is the specified one except for numbers of
    -1 or below, and at 64 bits for numbers of [2^64] or above. *)
Theorem trunc_u_fold_exact lw p f :
  valid_lw lw -> valid f ->
  exists v, fold_trunc_u [TBoundedNat lw] [(p, FF64 f)] = Folded [(0, v)] /\
            (trunc_spec false lw f v <->
             ~ (finite f /\ exists n, toward_zero (value f) n /\ (n < 0 \/ (lw = 6 /\ 2 ^ 64 <= n)))).
Proof. apply trunc_u_fold. Qed.
Print Assumptions trunc_u_fold_exact.

(** The folder of [trunc_s]: wrong exactly for numbers out of range at 64 bits. *)
Theorem trunc_s_fold_exact lw p f :
  valid_lw lw -> valid f ->
  exists v, fold_trunc_s [TBoundedNat lw] [(p, FF64 f)] = Folded [(0, v)] /\
            (trunc_spec true lw f v <->
             ~ (finite f /\ exists n, toward_zero (value f) n /\ lw = 6 /\ ~ in_s 6 n)).
Proof. apply trunc_s_fold. Qed.
Print Assumptions trunc_s_fold_exact.

Definition minus_one : f64 := S754_finite true (Z.to_pos (2 ^ 52)) (-52).
Definition two_64 : f64 := S754_finite false (Z.to_pos (2 ^ 52)) 12.
Definition two_and_half : f64 := S754_finite false (Z.to_pos (5 * 2 ^ 50)) (-51).
Example trunc_example :
  fold_trunc_u [TBoundedNat 3] [(0, FF64 two_and_half)] = Folded [(0, FSum 1 [FInt (mk_ci 3 2)])] /\
  fold_trunc_s [TBoundedNat 3] [(0, FF64 minus_one)] = Folded [(0, FSum 1 [FInt (mk_ci 3 255)])] /\
  fold_trunc_u [TBoundedNat 5] [(0, FF64 two_64)] = Folded [(0, FSum 0 [FErr 0])] /\
  fold_trunc_s [TBoundedNat 5] [(0, FF64 S754_nan)] = Folded [(0, FSum 0 [FErr 0])].
Proof. vm_compute. auto. Qed.

(** -1.0 as an unsigned integer is folded to 0, and [2^64] to the greatest 64-bit integer, instead of
    to an error. *)
Theorem trunc_fold_refuted :
  exists lw f v, valid_lw lw /\ valid f /\ finite f /\
    fold_trunc_u [TBoundedNat lw] [(0, FF64 f)] = Folded [(0, v)] /\ ~ trunc_spec false lw f v.
Proof.
  exists 3, minus_one, (FSum 1 [FInt (mk_ci 3 0)]).
  assert (V : valid minus_one) by (vm_compute; reflexivity).
  split; [unfold valid_lw; lia|]. split; [exact V|]. split; [exact Logic.I|]. split; [vm_compute; reflexivity|].
  intros [(n & w & _ & T & I & _)|[_ (s & E)]]; [|discriminate].
  apply (toward_zero_iff _ _ V) in T. vm_compute in T. subst n. unfold in_type, in_u in I. lia.
Qed.
Print Assumptions trunc_fold_refuted.
Theorem trunc_fold_saturates :
  fold_trunc_u [TBoundedNat 6] [(0, FF64 two_64)] = Folded [(0, FSum 1 [FInt (mk_ci 6 (2 ^ 64 - 1))])] /\
  fold_trunc_s [TBoundedNat 6] [(0, FF64 two_64)] = Folded [(0, FSum 1 [FInt (mk_ci 6 (2 ^ 63 - 1))])].
Proof. vm_compute. auto. Qed.
Print Assumptions trunc_fold_saturates.

(** The emitted code, at widths with an LLVM type of their own, never gives poison.  Its result is the
    specified one except for numbers that lie less than one outside of the least number of the type,
    or (below 64 bits) less than one above the greatest one or on it: it refuses those. *)
Theorem trunc_emitted_exact sgn lw f :
  exact_lw lw -> valid f ->
  exists v, lowered lw (emit_trunc sgn lw (2 ^ lw) f) = Some v /\
    (trunc_spec sgn lw f v <->
     ~ (finite f /\
        let lo := if sgn then - 2 ^ (bits lw - 1) else 0 in
        let hi := if sgn then 2 ^ (bits lw - 1) else 2 ^ bits lw in
        ((inject_Z lo - 1 < value f /\ value f < inject_Z lo) \/
         (lw <> 6%Z /\ inject_Z hi - 1 <= value f /\ value f < inject_Z hi))%Q)).
Proof. intros L V. apply (emit_trunc_exact sgn lw f L V). Qed.
Print Assumptions trunc_emitted_exact.

Definition f_127 : f64 := S754_finite false (Z.to_pos (127 * 2 ^ 46)) (-46).
Definition minus_half : f64 := S754_finite true (Z.to_pos (2 ^ 52)) (-53).
Example trunc_emitted_example :
  lowered 3 (emit_trunc true 3 8 minus_one) = Some (FSum 1 [FInt (mk_ci 3 255)]) /\
  lowered 6 (emit_trunc false 6 64 two_64) = Some (FSum 0 [FErr 2]) /\
  lowered 3 (emit_trunc true 3 8 f_127) = Some (FSum 0 [FErr 2]) /\
  lowered 3 (emit_trunc false 3 8 minus_half) = Some (FSum 0 [FErr 2]).
Proof. vm_compute. auto. Qed.

(** 127.0 is refused as a signed 8-bit integer by the emitted code, and so are -0.5 as an unsigned
    integer; the folder accepts both. *)
Theorem trunc_emitted_refuted :
  exists lw f v, exact_lw lw /\ valid f /\ finite f /\
    lowered lw (emit_trunc true lw (2 ^ lw) f) = Some v /\ ~ trunc_spec true lw f v.
Proof.
  exists 3, f_127, (FSum 0 [FErr 2]). assert (V : valid f_127) by (vm_compute; reflexivity).
  split; [unfold exact_lw; lia|]. split; [exact V|]. split; [exact Logic.I|]. split; [vm_compute; reflexivity|].
  intros [(n & w & _ & _ & _ & _ & E)|[N _]]; [discriminate|]. apply N.
  exists 127. split; [exact Logic.I|]. split; [|unfold in_type, in_s; vm_compute; split; congruence].
  apply (toward_zero_iff _ _ V). vm_compute. reflexivity.
Qed.
Print Assumptions trunc_emitted_refuted.
Theorem trunc_disagree :
  fold_trunc_s [TBoundedNat 3] [(0, FF64 f_127)] = Folded [(0, FSum 1 [FInt (mk_ci 3 127)])] /\
  lowered 3 (emit_trunc true 3 8 f_127) = Some (FSum 0 [FErr 2]) /\
  fold_trunc_u [TBoundedNat 3] [(0, FF64 minus_half)] = Folded [(0, FSum 1 [FInt (mk_ci 3 0)])] /\
  lowered 3 (emit_trunc false 3 8 minus_half) = Some (FSum 0 [FErr 2]).
Proof. vm_compute. auto. Qed.
Print Assumptions trunc_disagree.

(** The specification determines the result (up to the signal of the error), so the folder and the
    emitted code agree wherever both are right. *)
Theorem trunc_spec_unique sgn lw f v v' :
  valid_lw lw -> valid f -> trunc_spec sgn lw f v -> trunc_spec sgn lw f v' ->
  v = v' \/ exists s s', v = FSum 0 [FErr s] /\ v' = FSum 0 [FErr s'].
Proof.
  intros H V [(n & w & F & T & I & S & ->)|[N (s & ->)]] [(n' & w' & F' & T' & I' & S' & ->)|[N' (s' & ->)]].
  - left. rewrite (tz_unique f n n' V T T') in *. do 4 f_equal. destruct sgn; cbn [stored] in S, S'.
    + destruct S as [U E], S' as [U' E']. rewrite <- (signed_cong lw w), <- (signed_cong lw w') by assumption. congruence.
    + destruct S, S'. congruence.
  - exfalso. apply N'. eauto.
  - exfalso. apply N. eauto.
  - right. eauto.
Qed.
Print Assumptions trunc_spec_unique.

(** * Integers to floats (C47) *)
Theorem convert_u_fold p c :
  wf_ci c ->
  exists f, fold_convert_u [(p, FInt c)] = Folded [(0, FF64 f)] /\ nearest_even (value_u c) f /\
            emit_convert false (bits (ci_lw c)) (ci_val c) = f.
Proof.
  intros [Hl Hv]. unfold value_u. pose proof (bits_lw _ Hl) as B.
  assert (R : 0 <= ci_val c < 2 ^ 64).
  { unfold in_u in Hv. assert (2 ^ bits (ci_lw c) <= 2 ^ 64) by (apply Z.pow_le_mono_r; lia). lia. }
  exists (u64_to_f64 (ci_val c)). pose proof (u64_nearest _ R) as N. split; [|split; [exact N|reflexivity]].
  destruct N as (_ & F & _). apply finite_iff in F.
  unfold fold_convert_u, single_ci, single, new_f64, value_u. rewrite F. reflexivity.
Qed.
Print Assumptions convert_u_fold.
Theorem convert_s_fold p c :
  wf_ci c ->
  exists f, fold_convert_s [(p, FInt c)] = Folded [(0, FF64 f)] /\ nearest_even (signed (ci_lw c) (ci_val c)) f /\
            emit_convert true (bits (ci_lw c)) (ci_val c) = f.
Proof.
  intros Hwf. pose proof (wf_i64 c Hwf) as R. pose proof (value_s_signed c Hwf) as VS.
  exists (i64_to_f64 (value_s c)). pose proof (i64_nearest _ R) as N.
  split; [|split].
  - destruct N as (_ & F & _). apply finite_iff in F.
    unfold fold_convert_s, single_ci, single, new_f64. rewrite F. reflexivity.
  - rewrite <- VS. exact N.
  - rewrite VS. destruct Hwf as [Hl Hv]. rewrite (signed_eq _ _ Hl Hv). reflexivity.
Qed.
Print Assumptions convert_s_fold.
(** [2^53 + 1] lies between two floats and goes to the even one below; [2^53 + 3] to the one above. *)
Example convert_example :
  fold_convert_u [(0, FInt (mk_ci 6 (2 ^ 53 + 1)))] = Folded [(0, FF64 (S754_finite false (Z.to_pos (2 ^ 52)) 1))] /\
  fold_convert_u [(0, FInt (mk_ci 6 (2 ^ 53 + 3)))] = Folded [(0, FF64 (S754_finite false (Z.to_pos (2 ^ 52 + 2)) 1))] /\
  fold_convert_s [(0, FInt (mk_ci 3 255))] = Folded [(0, FF64 minus_one)].
Proof. vm_compute. auto. Qed.

(** Converting an integer below [2^53] to a float and back gives the integer. *)
Theorem int_float_int_u lw n p q :
  valid_lw lw -> in_u lw n -> n < 2 ^ 53 ->
  exists f, fold_convert_u [(p, FInt (mk_ci lw n))] = Folded [(0, FF64 f)] /\
            (value f == inject_Z n)%Q /\
            fold_trunc_u [TBoundedNat lw] [(q, FF64 f)] = Folded [(0, FSum 1 [FInt (mk_ci lw n)])].
Proof.
  intros Hl Hn L. destruct (convert_u_fold p (mk_ci lw n) (conj Hl Hn)) as (f & E & (V & F & N) & E2).
  exists f. split; [exact E|]. unfold emit_convert in E2. cbn [ci_val ci_lw] in E2.
  assert (S : scaled f = n * P) by (rewrite <- E2; apply u64_exact; unfold in_u in Hn; lia).
  assert (EQ : (value f == inject_Z n)%Q) by (apply (q_eq _ _ _ _ (value_scaled f V) (s_int n)); exact S).
  split; [exact EQ|].
  assert (T : toward_zero (value f) n).
  { apply (mode_scaled Trunc f n V). rewrite S. pose proof P_pos. nia. }
  destruct (trunc_u_fold lw q f Hl V) as (v & Ef & Sp). rewrite Ef. do 3 f_equal.
  assert (OK : trunc_spec false lw f v).
  { apply Sp. intros [_ (n' & T' & B)]. rewrite (tz_unique f n' n V T' T) in B. unfold in_u in Hn. lia. }
  destruct OK as [(n' & w & _ & T' & _ & [_ ->] & ->)|[B _]].
  - rewrite (tz_unique f n' n V T' T). reflexivity.
  - exfalso. apply B. exists n. auto.
Qed.
Print Assumptions int_float_int_u.
Theorem int_float_int_s lw w p q :
  valid_lw lw -> in_u lw w -> - 2 ^ 53 < signed lw w < 2 ^ 53 ->
  exists f, fold_convert_s [(p, FInt (mk_ci lw w))] = Folded [(0, FF64 f)] /\
            (value f == inject_Z (signed lw w))%Q /\
            fold_trunc_s [TBoundedNat lw] [(q, FF64 f)] = Folded [(0, FSum 1 [FInt (mk_ci lw w)])].
Proof.
  intros Hl Hn L. destruct (convert_s_fold p (mk_ci lw w) (conj Hl Hn)) as (f & E & (V & F & N) & _).
  exists f. split; [exact E|]. cbn [ci_val ci_lw] in N.
  assert (S : scaled f = signed lw w * P).
  { unfold fold_convert_s, single_ci, single, new_f64 in E.
    destruct (is_finite (i64_to_f64 (value_s (mk_ci lw w)))); [|discriminate E]. injection E as <-.
    rewrite (value_s_signed (mk_ci lw w) (conj Hl Hn)). apply i64_exact. exact L. }
  set (n := signed lw w) in *.
  assert (EQ : (value f == inject_Z n)%Q) by (apply (q_eq _ _ _ _ (value_scaled f V) (s_int n)); exact S).
  split; [exact EQ|].
  assert (T : toward_zero (value f) n).
  { apply (mode_scaled Trunc f n V). rewrite S. pose proof P_pos. nia. }
  destruct (trunc_s_fold lw q f Hl V) as (v & Ef & Sp). rewrite Ef. do 3 f_equal.
  assert (OK : trunc_spec true lw f v).
  { apply Sp. intros [_ (n' & T' & _ & B)]. rewrite (tz_unique f n' n V T' T) in B. apply B. unfold in_s. change (bits 6 - 1) with 63. lia. }
  destruct OK as [(n' & w' & _ & T' & _ & [U E'] & ->)|[B _]].
  - rewrite (tz_unique f n' n V T' T) in E'. do 4 f_equal.
    rewrite <- (signed_cong lw w), <- (signed_cong lw w') by assumption. fold n. congruence.
  - exfalso. apply B. exists n. split; [exact F|]. split; [exact T|]. apply (signed_in lw w Hl Hn).
Qed.
Print Assumptions int_float_int_s.

(** * The other conversions (C47) *)
Theorem bool_conversions p q b :
  exists c, fold_ifrombool [] [(p, fbool b)] = Folded [(0, FInt c)] /\
            ci_lw c = 0 /\ value_u c = (if b then 1 else 0) /\
            fold_itobool [] [(q, FInt c)] = Folded [(0, fbool b)].
Proof. exists (mk_ci 0 (if b then 1 else 0)). destruct b; repeat split. Qed.
Print Assumptions bool_conversions.
Theorem itobool_exact p c :
  wf_ci c -> ci_lw c = 0 ->
  fold_itobool [] [(p, FInt c)] = Folded [(0, fbool (negb (ci_val c =? 0)))].
Proof.
  intros [_ Hv] L. unfold fold_itobool, single_ci, single, value_u. rewrite L. cbn.
  unfold in_u in Hv. rewrite L in Hv. change (2 ^ bits 0) with 2 in Hv.
  assert (C : ci_val c = 0 \/ ci_val c = 1) by lia. destruct C as [-> | ->]; reflexivity.
Qed.
Print Assumptions itobool_exact.
Theorem usize_conversions p q n :
  0 <= n < 2 ^ 64 ->
  fold_ifromusize [] [(p, FUsize n)] = Folded [(0, FInt (mk_ci 6 n))] /\
  fold_itousize [] [(q, FInt (mk_ci 6 n))] = Folded [(0, FUsize n)].
Proof. intros H. split; reflexivity. Qed.
Print Assumptions usize_conversions.
Theorem itostring_fold p c :
  wf_ci c ->
  (exists s, fold_itostring_u [TBoundedNat (ci_lw c)] [(p, FInt c)] = Folded [(0, FStr s)] /\ decimal (ci_val c) s) /\
  (exists s, fold_itostring_s [TBoundedNat (ci_lw c)] [(p, FInt c)] = Folded [(0, FStr s)] /\
             decimal (signed (ci_lw c) (ci_val c)) s).
Proof.
  intros Hwf. pose proof (wf_i64 c Hwf) as R. pose proof (value_s_signed c Hwf) as VS. destruct Hwf as [Hl Hv].
  pose proof (bits_lw _ Hl) as B.
  assert (R' : 0 <= ci_val c < 2 ^ 64).
  { unfold in_u in Hv. assert (2 ^ bits (ci_lw c) <= 2 ^ 64) by (apply Z.pow_le_mono_r; lia). lia. }
  unfold fold_itostring_u, fold_itostring_s, fold_itostring, single_ci, single, or_nofold. rewrite (get_log_width_ok _ Hl).
  cbn [obind]. rewrite Z.eqb_refl. split; (eexists; split; [reflexivity|]).
  - unfold decimal, value_u. destruct (Z.ltb_spec (ci_val c) 0); [lia|]. apply u64_decimal, R'.
  - rewrite <- VS. apply i64_decimal, R.
Qed.
Print Assumptions itostring_fold.
(** A decimal notation determines the number. *)
Theorem decimal_unique n n' s : decimal n s -> decimal n' s -> n = n'.
Proof.
  unfold decimal, decimal_nat. destruct (Z.ltb_spec n 0), (Z.ltb_spec n' 0).
  - intros (s1 & -> & E1 & _) (s2 & E & E2 & _). injection E as <-. rewrite E1 in E2. injection E2. lia.
  - intros (s1 & -> & E1 & _) (E2 & _). discriminate.
  - intros (E2 & _) (s1 & -> & E1 & _). discriminate.
  - intros (E1 & _) (E2 & _). congruence.
Qed.
Print Assumptions decimal_unique.
Example itostring_example :
  fold_itostring_u [TBoundedNat 3] [(0, FInt (mk_ci 3 255))] = Folded [(0, FStr "255")] /\
  fold_itostring_s [TBoundedNat 3] [(0, FInt (mk_ci 3 128))] = Folded [(0, FStr "-128")] /\
  fold_itostring_u [TBoundedNat 6] [(0, FInt (mk_ci 6 (2 ^ 64 - 1)))] = Folded [(0, FStr "18446744073709551615")].
Proof. vm_compute. auto. Qed.

(** No folder of a conversion unwinds, whatever the type arguments and constants. *)
Inductive conversion := trunc_u | trunc_s | convert_u | convert_s | itobool | ifrombool | itostring_u
                      | itostring_s | itousize | ifromusize.
Definition fold_conversion (op : conversion) (args : list targ) (cs : consts) : folded :=
  match op with
  | trunc_u => fold_trunc_u args cs | trunc_s => fold_trunc_s args cs
  | convert_u => fold_convert_u cs | convert_s => fold_convert_s cs
  | itobool => fold_itobool args cs | ifrombool => fold_ifrombool args cs
  | itostring_u => fold_itostring_u args cs | itostring_s => fold_itostring_s args cs
  | itousize => fold_itousize args cs | ifromusize => fold_ifromusize args cs
  end.
Definition wf_const (v : fval) : Prop :=
  match v with FInt c => wf_ci c | FUsize n => 0 <= n < 2 ^ 64 | FF64 f => valid f | _ => True end.
Theorem conversion_no_panic op args cs :
  Forall (fun pv => wf_const (snd pv)) cs -> fold_conversion op args cs <> Panic.
Proof.
  intros W. destruct op; cbn [fold_conversion].
  - unfold fold_trunc_u, fold_trunc. destruct (single_f64 cs); [|discriminate].
    destruct args as [|a [|]]; try discriminate. destruct (get_log_width a); discriminate.
  - unfold fold_trunc_s, fold_trunc. destruct (single_f64 cs); [|discriminate].
    destruct args as [|a [|]]; try discriminate. destruct (get_log_width a); discriminate.
  - destruct cs as [|[p v] [|]]; try discriminate. destruct v; try discriminate.
    inversion W as [|? ? H _]; subst. destruct (convert_u_fold p c H) as (f & -> & _). discriminate.
  - destruct cs as [|[p v] [|]]; try discriminate. destruct v; try discriminate.
    inversion W as [|? ? H _]; subst. destruct (convert_s_fold p c H) as (f & -> & _). discriminate.
  - unfold fold_itobool. destruct args; [|discriminate]. destruct (single_ci cs); [|discriminate].
    destruct (_ =? _); discriminate.
  - unfold fold_ifrombool. destruct args; [|discriminate]. destruct (single cs) as [v|]; [|discriminate].
    destruct (is_true v); discriminate.
  - unfold fold_itostring_u, fold_itostring. destruct args as [|a [|]]; try discriminate.
    destruct (get_log_width a); [|discriminate]. cbn. destruct (single_ci cs); [|discriminate]. cbn. destruct (_ =? _); discriminate.
  - unfold fold_itostring_s, fold_itostring. destruct args as [|a [|]]; try discriminate.
    destruct (get_log_width a); [|discriminate]. cbn. destruct (single_ci cs); [|discriminate]. cbn. destruct (_ =? _); discriminate.
  - unfold fold_itousize. destruct args; [|discriminate]. destruct (single_ci cs); [|discriminate].
    destruct (_ =? _); discriminate.
  - unfold fold_ifromusize. destruct args; [|discriminate]. destruct (single_usize cs); discriminate.
Qed.
Print Assumptions conversion_no_panic.

(** * Float operations (C48) *)
(** Constants of two ports in either order. *)
Definition two_inputs (x y : f64) (cs : consts) : Prop :=
  cs = [(0, FF64 x); (1, FF64 y)] \/ cs = [(1, FF64 y); (0, FF64 x)].
Lemma get_two x y cs : two_inputs x y cs -> get_floats 2 cs = Folded [x; y].
Proof. intros H. unfold get_floats. rewrite (sorted_two (FF64 x) (FF64 y) cs H). reflexivity. Qed.

Theorem float_cmp_fold op x y cs :
  valid x -> finite x -> valid y -> finite y -> two_inputs x y cs ->
  exists b, fold_cmp op cs = Folded [(0, fbool b)] /\ (b = true <-> cmp_spec op (value x) (value y)).
Proof.
  intros V1 F1 V2 F2 T. eexists. split; [unfold fold_cmp; rewrite (get_two x y cs T); reflexivity|].
  apply cmp_f64_spec; assumption.
Qed.
Print Assumptions float_cmp_fold.
Theorem float_cmp_emitted op x y :
  valid x -> finite x -> valid y -> finite y ->
  (emit_fcmp op x y = true <-> cmp_spec op (value x) (value y)) /\ emit_fcmp op x y = cmp_f64 op x y.
Proof.
  intros V1 F1 V2 F2. pose proof (fcmp_spec op x y V1 F1 V2 F2) as A. split; [exact A|].
  pose proof (cmp_f64_spec op x y V1 F1 V2 F2) as B.
  destruct (emit_fcmp op x y), (cmp_f64 op x y); try reflexivity.
  - symmetry. apply B, A. reflexivity.
  - apply A, B. reflexivity.
Qed.
Print Assumptions float_cmp_emitted.
(** With a NaN every comparison but inequality is false (IEEE 754, WebAssembly).  The emitted code
    answers false for inequality too. *)
Theorem float_cmp_nan op x :
  cmp_f64 op x S754_nan = match op with fne => true | _ => false end /\
  cmp_f64 op S754_nan x = match op with fne => true | _ => false end.
Proof. destruct op, x; cbn; auto. Qed.
Print Assumptions float_cmp_nan.
Theorem float_fne_emitted_refuted :
  exists x, cmp_f64 fne x x = true /\ emit_fcmp fne x x = false.
Proof. exists S754_nan. vm_compute. auto. Qed.
Print Assumptions float_fne_emitted_refuted.

Theorem float_round_fold op p x :
  valid x -> finite x -> op <> fneg -> op <> fabs ->
  exists r n, fold_unary op [(p, FF64 x)] = Folded [(0, FF64 r)] /\ valid r /\ (value r == inject_Z n)%Q /\
    match op with
    | ffloor => floor_of (value x) n
    | fceil => ceil_of (value x) n
    | _ => round_of (value x) n
    end /\ sign r = sign x.
Proof.
  intros V F N1 N2.
  assert (H : forall mo, let r := round_int mo x in
     exists n, mode_spec mo (value x) n /\ valid r /\ is_finite r = true /\ (value r == inject_Z n)%Q /\ sign r = sign x).
  { intros mo. destruct (round_int_spec mo x V F) as (n & M & V2 & F2 & S & G). exists n.
    split; [exact M|]. split; [exact V2|]. split; [apply finite_iff, F2|]. split; [|exact G].
    apply (q_eq _ _ _ _ (value_scaled _ V2) (s_int n)). exact S. }
  unfold fold_unary, get_floats. cbn [sorted_consts sort_ports fold_right insert_port map snd List.length Nat.eqb floats obind].
  destruct op; try contradiction; cbn [un_f64].
  - destruct (H Floor) as (n & M & V2 & F2 & E & G). eexists _, n. unfold new_f64. rewrite F2. split; [reflexivity|]. auto.
  - destruct (H Ceil) as (n & M & V2 & F2 & E & G). eexists _, n. unfold new_f64. rewrite F2. split; [reflexivity|]. auto.
  - destruct (H Round) as (n & M & V2 & F2 & E & G). eexists _, n. unfold new_f64. rewrite F2. split; [reflexivity|]. auto.
Qed.
Print Assumptions float_round_fold.
Theorem float_sign_fold p x :
  valid x -> finite x ->
  (exists r, fold_unary fneg [(p, FF64 x)] = Folded [(0, FF64 r)] /\ valid r /\ (value r == - value x)%Q) /\
  (exists r, fold_unary fabs [(p, FF64 x)] = Folded [(0, FF64 r)] /\ valid r /\ (value r == Qabs (value x))%Q).
Proof.
  intros V F. destruct x as [s|s| |s m e]; try contradiction.
  - split; eexists; (split; [reflexivity|]); split; reflexivity || exact V.
  - split.
    + exists (S754_finite (negb s) m e). split; [reflexivity|]. split; [exact V|]. cbn [value].
      destruct s; cbn [negb]; change (Zneg m) with (- Zpos m); rewrite inject_Z_opp; ring.
    + exists (S754_finite false m e). split; [reflexivity|]. split; [exact V|]. cbn [value].
      rewrite Qabs_Qmult, (Qabs_pos ((2 # 1) ^ e)) by (apply Qlt_le_weak, qpow_pos). destruct s; reflexivity.
Qed.
Print Assumptions float_sign_fold.
Theorem float_minmax_fold tie x y cs :
  valid x -> finite x -> valid y -> finite y -> two_inputs x y cs ->
  (exists r, fold_binary (max_f64 tie) cs = Folded [(0, FF64 r)] /\
             (r = x \/ r = y) /\ (value x <= value r)%Q /\ (value y <= value r)%Q) /\
  (exists r, fold_binary (min_f64 tie) cs = Folded [(0, FF64 r)] /\
             (r = x \/ r = y) /\ (value r <= value x)%Q /\ (value r <= value y)%Q).
Proof.
  intros V1 F1 V2 F2 T. unfold fold_binary. rewrite (get_two x y cs T). cbn [obind].
  pose proof (max_spec tie x y V1 F1 V2 F2) as M1. pose proof (min_spec tie x y V1 F1 V2 F2) as M2. cbn zeta in M1, M2.
  split.
  - exists (max_f64 tie x y). split; [|exact M1]. destruct M1 as [[-> | ->] _];
      [rewrite (proj2 (finite_iff x) F1)|rewrite (proj2 (finite_iff y) F2)]; unfold new_f64;
      [rewrite (proj2 (finite_iff x) F1)|rewrite (proj2 (finite_iff y) F2)]; reflexivity.
  - exists (min_f64 tie x y). split; [|exact M2]. destruct M2 as [[-> | ->] _];
      [rewrite (proj2 (finite_iff x) F1)|rewrite (proj2 (finite_iff y) F2)]; unfold new_f64;
      [rewrite (proj2 (finite_iff x) F1)|rewrite (proj2 (finite_iff y) F2)]; reflexivity.
Qed.
Print Assumptions float_minmax_fold.
(** Arithmetic, for whatever the floating-point unit computes: folded exactly when the result is
    finite, on the operands in port order, and never unwinding. *)
Theorem float_arith_fold (arith : arith_op -> f64 -> f64 -> f64) op x y cs :
  two_inputs x y cs ->
  (finite (arith op x y) -> fold_binary (arith op) cs = Folded [(0, FF64 (arith op x y))]) /\
  (~ finite (arith op x y) -> fold_binary (arith op) cs = NoFold).
Proof.
  intros T. unfold fold_binary. rewrite (get_two x y cs T). cbn [obind]. split; intros F.
  - apply finite_iff in F. rewrite F. unfold new_f64. rewrite F. reflexivity.
  - destruct (is_finite (arith op x y)) eqn:E; [apply finite_iff in E; contradiction|reflexivity].
Qed.
Print Assumptions float_arith_fold.
(** With another number of constants there is no result; a constant that is no float unwinds. *)
Theorem float_fold_arity op cs :
  List.length cs <> 2%nat -> fold_cmp op cs = NoFold.
Proof.
  intros H. unfold fold_cmp, get_floats.
  assert (L : forall (x : Z * fval) l, List.length (insert_port x l) = S (List.length l)).
  { intros x. induction l as [|y l IHl]; [reflexivity|]. cbn. destruct (_ <=? _); cbn; [reflexivity|rewrite IHl; reflexivity]. }
  assert (E : List.length (sorted_consts cs) = List.length cs).
  { unfold sorted_consts. rewrite map_length. unfold sort_ports. clear H. induction cs as [|c cs IH]; [reflexivity|].
    cbn [fold_right List.length]. rewrite L, IH. reflexivity. }
  rewrite E. apply Nat.eqb_neq in H. rewrite H. reflexivity.
Qed.
Print Assumptions float_fold_arity.
Example float_example :
  fold_unary ffloor [(0, FF64 minus_half)] = Folded [(0, FF64 minus_one)] /\
  fold_unary fceil [(0, FF64 minus_half)] = Folded [(0, FF64 (S754_zero true))] /\
  fold_unary fround [(0, FF64 minus_half)] = Folded [(0, FF64 minus_one)] /\
  fold_cmp flt [(1, FF64 two_64); (0, FF64 minus_one)] = Folded [(0, fbool true)] /\
  fold_binary (max_f64 true) [(1, FF64 two_64); (0, FF64 minus_one)] = Folded [(0, FF64 two_64)] /\
  fold_cmp flt [(1, FF64 two_64); (0, fbool true)] = Panic.
Proof. vm_compute. auto 10. Qed.
