(** Lemmas about the text form: lexical part. *)
From Coq Require Import String Ascii List Bool NArith Arith Lia.
From Verif Require Import TextModel TextSpec.
Import ListNotations.
Open Scope N_scope.
Open Scope list_scope.

(** * Documents *)
Lemma renders_app a : forall b s, renders (a ++ b) s -> exists s1 s2, s = s1 ++ s2 /\ renders a s1 /\ renders b s2.
Proof.
  induction a as [|x a IH]; intros b s H; cbn [app] in H.
  - exists [], s. repeat split; [constructor|exact H].
  - inversion H as [|c d s' Hr E1 E2|w d s' Hw Hr E1 E2]; subst.
    + destruct (IH _ _ Hr) as (s1 & s2 & -> & Ha & Hb). exists (c :: s1), s2. repeat split; [constructor; exact Ha|exact Hb].
    + destruct (IH _ _ Hr) as (s1 & s2 & -> & Ha & Hb). exists (w ++ s1), s2. rewrite app_assoc. repeat split; [constructor; assumption|exact Hb].
Qed.
Lemma renders_join a b s1 s2 : renders a s1 -> renders b s2 -> renders (a ++ b) (s1 ++ s2).
Proof. induction 1; intros Hb; cbn; [exact Hb| |rewrite <- app_assoc]; constructor; auto. Qed.
Lemma renders_chars t : forall s, renders (chars t) s -> s = t.
Proof. induction t as [|c t IH]; intros s H; inversion H; subst; [reflexivity|]. f_equal. apply IH. assumption. Qed.
Lemma renders_line d s : renders (None :: d) s -> exists w s', s = w ++ s' /\ blank w /\ renders d s'.
Proof. intros H. inversion H; subst. eauto. Qed.

(** * White space *)
Lemma skip_blank w : blank w -> forall s, skip (w ++ s) = skip s.
Proof.
  intros [_ H] s. induction w as [|c w IH]; [reflexivity|]. unfold skip. cbn [skip_in app].
  assert (Hc : is_ws c = true) by (destruct (H c (or_introl eq_refl)) as [-> | ->]; reflexivity). rewrite Hc. apply IH. intros x Hx. apply H. right. exact Hx.
Qed.
(** The first character is not skipped. *)
Definition solid (c : N) : Prop := is_ws c = false /\ c <> 59.
Lemma skip_solid c s : solid c -> skip (c :: s) = c :: s.
Proof. intros [H H']. unfold skip. cbn [skip_in]. rewrite H. apply N.eqb_neq in H'. rewrite H'. reflexivity. Qed.

(** What follows the white space. *)
Definition tidy (s : str) : Prop := match s with [] => True | c :: _ => solid c end.
Lemma skip_tidy s : tidy s -> skip s = s.
Proof. destruct s; [reflexivity|apply skip_solid]. Qed.

(** * Characters *)
Lemma is_alpha_iff c : is_alpha c = true <-> letter c.
Proof. unfold is_alpha, letter. rewrite orb_true_iff, !andb_true_iff, !N.leb_le. tauto. Qed.
Lemma is_digit_iff c : is_digit c = true <-> digit c.
Proof. unfold is_digit, digit. rewrite andb_true_iff, !N.leb_le. tauto. Qed.
Lemma ident_rest_iff c : ident_rest c = true <-> name_char c.
Proof. unfold ident_rest, name_char. rewrite !orb_true_iff, is_alpha_iff, is_digit_iff, !N.eqb_eq. tauto. Qed.
Lemma ident_initial_iff c : ident_initial c = true <-> letter c \/ c = 95 \/ c = 45.
Proof. unfold ident_initial. rewrite !orb_true_iff, is_alpha_iff, !N.eqb_eq. tauto. Qed.
Lemma name_char_solid c : name_char c -> solid c.
Proof.
  unfold name_char, letter, digit, solid, is_ws. intros H. rewrite !orb_false_iff, !N.eqb_neq. lia.
Qed.

(** What may follow a term. *)
Definition delim (s : str) : Prop := match s with [] => True | c :: _ => c = 32 \/ c = 10 \/ c = 41 \/ c = 93 end.
Lemma delim_blank w s : blank w -> delim (w ++ s).
Proof. intros [H H']. destruct w as [|c w]; [congruence|]. cbn. destruct (H' c (or_introl eq_refl)); tauto. Qed.
Lemma delim_name_char c s : delim (c :: s) -> ident_rest c = false.
Proof. cbn. intros [-> |[-> |[-> | ->]]]; reflexivity. Qed.
Lemma delim_dot c s : delim (c :: s) -> c <> 46.
Proof. cbn. lia. Qed.

Lemma span_stop (f : N -> bool) a : forall s, Forall (fun c => f c = true) a -> match s with c :: _ => f c = false | [] => True end -> span f (a ++ s) = (a, s).
Proof.
  induction a as [|c a IH]; intros s Ha Hs; cbn [app span].
  - destruct s as [|c s]; [reflexivity|]. cbn [span]. rewrite Hs. reflexivity.
  - inversion Ha as [|? ? Hc Ha']; subst. rewrite Hc, IH by assumption. reflexivity.
Qed.

(** * Names *)
Lemma names_rest r : Forall name_char r -> Forall (fun c => ident_rest c = true) r.
Proof. apply Forall_impl. intros c. apply ident_rest_iff. Qed.
Lemma p_ident_ok a s : ident a -> match s with c :: _ => ident_rest c = false | [] => True end -> p_ident (a ++ s) = Some (a, s).
Proof.
  intros (c & r & -> & Hc & Hr) Hs. cbn [app p_ident]. apply ident_initial_iff in Hc. rewrite Hc.
  rewrite span_stop; [reflexivity|apply names_rest; exact Hr|exact Hs].
Qed.
Definition stop (s : str) : Prop := match s with c :: _ => ident_rest c = false /\ c <> 46 | [] => True end.
Lemma delim_stop s : delim s -> stop s.
Proof. destruct s as [|c s]; [trivial|]. intros H. split; [eapply delim_name_char; exact H|eapply delim_dot; exact H]. Qed.
Lemma p_segments_ok segs : forall a s fuel, Forall ident (a :: segs) -> stop s -> (length segs <= fuel)%nat ->
  forall r, dotted (a :: segs) = a ++ r -> p_segments fuel (r ++ s) = (r, s).
Proof.
  induction segs as [|b segs IH]; intros a s fuel Ha Hs Hf r Hr.
  - cbn in Hr. assert (r = []) as ->. { apply (f_equal (@length N)) in Hr. rewrite app_length in Hr. destruct r; [reflexivity|cbn in Hr; lia]. }
    cbn [app]. destruct fuel; [reflexivity|]. destruct s as [|c s]; [reflexivity|]. cbn [p_segments]. destruct Hs as [_ Hs].
    apply N.eqb_neq in Hs. rewrite Hs. reflexivity.
  - replace (dotted (a :: b :: segs)) with (a ++ 46 :: dotted (b :: segs)) in Hr by reflexivity. apply app_inv_head in Hr. subst r.
    inversion Ha as [|? ? _ Hb]; subst. destruct fuel as [|fuel]; [cbn in Hf; lia|]. cbn [app p_segments].
    assert (exists r', dotted (b :: segs) = b ++ r' /\ (r' = [] \/ exists r'', r' = 46 :: r'')) as (r' & Er & Hr').
    { destruct segs as [|b' segs]; [exists []; split; [cbn; rewrite app_nil_r; reflexivity|tauto]|]. exists (46 :: dotted (b' :: segs)). split; [reflexivity|eauto]. }
    rewrite Er, <- app_assoc. rewrite p_ident_ok; [|inversion Hb; assumption|destruct Hr' as [-> |(r'' & ->)]; [destruct s; [trivial|exact (proj1 Hs)]|reflexivity]].
    rewrite (IH b s fuel Hb Hs ltac:(cbn in Hf; lia) r' Er). reflexivity.
Qed.

Lemma lit_app k s : lit k (k ++ s) = Some s.
Proof. induction k as [|c k IH]; [reflexivity|]. cbn. rewrite N.eqb_refl. exact IH. Qed.
Lemma lit_some k : forall s r, lit k s = Some r -> s = k ++ r.
Proof.
  induction k as [|c k IH]; intros s r H; cbn in H; [injection H as ->; reflexivity|]. destruct s as [|b s]; [discriminate|].
  destruct (c =? b) eqn:E; [|discriminate]. apply N.eqb_eq in E as ->. cbn. f_equal. apply IH. exact H.
Qed.
(** A word without delimiters is found in [n ++ s] only if it is at the start of [n]. *)
Lemma lit_delim k n s r : Forall (fun c => c <> 32 /\ c <> 10 /\ c <> 41 /\ c <> 93) k -> delim s -> lit k (n ++ s) = Some r -> exists r', n = k ++ r' /\ r = r' ++ s.
Proof.
  revert n r. induction k as [|c k IH]; intros n r Hk Hs H; cbn in H.
  - injection H as <-. exists n. split; reflexivity.
  - inversion Hk as [|? ? Hc Hk']; subst. destruct n as [|b n].
    + destruct s as [|b s]; [discriminate|]. cbn [app] in H. destruct (c =? b) eqn:E; [|discriminate]. apply N.eqb_eq in E as ->. cbn in Hs. lia.
    + cbn [app] in H. destruct (c =? b) eqn:E; [|discriminate]. apply N.eqb_eq in E as ->. destruct (IH n r Hk' Hs H) as (r' & -> & ->). exists r'. split; reflexivity.
Qed.
Lemma p_reserved_some ks s r : p_reserved ks s = Some r -> exists k, In k ks /\ lit k s = Some r.
Proof.
  induction ks as [|k ks IH]; cbn; [discriminate|]. destruct (lit k s) eqn:E.
  - intros H. injection H as <-. eauto.
  - intros H. destruct (IH H) as (k' & Hk & He). eauto.
Qed.
Lemma reserved_plain k : In k reserved -> Forall (fun c => c <> 32 /\ c <> 10 /\ c <> 41 /\ c <> 93) k.
Proof.
  intros H. assert (G : forallb (fun k => forallb (fun c => negb ((c =? 32) || (c =? 10) || (c =? 41) || (c =? 93))) k) reserved = true) by (vm_compute; reflexivity).
  rewrite forallb_forall in G. specialize (G k H). rewrite forallb_forall in G. apply Forall_forall. intros c Hc. specialize (G c Hc).
  rewrite negb_true_iff, !orb_false_iff, !N.eqb_neq in G. tauto.
Qed.
Lemma reserved_keywords k : In k reserved -> In k keywords \/ k = text "...".
Proof.
  replace reserved with (keywords ++ [text "..."]) by (vm_compute; reflexivity). intros H. apply in_app_iff in H as [H|[H|[]]]; [left; exact H|right; symmetry; exact H].
Qed.

(** The characters of names. *)
Lemma ident_chars a : ident a -> Forall name_char a.
Proof. intros (c & r & -> & Hc & Hr). constructor; [unfold name_char; tauto|exact Hr]. Qed.
Lemma dotted_chars segs : Forall ident segs -> Forall (fun c => name_char c \/ c = 46) (dotted segs).
Proof.
  induction segs as [|a segs IH]; intros H; [constructor|]. inversion H as [|? ? Ha Hs]; subst. assert (Ga := ident_chars a Ha).
  assert (Ga' : Forall (fun c => name_char c \/ c = 46) a) by (eapply Forall_impl; [|exact Ga]; cbn; tauto).
  destruct segs as [|b segs]; [exact Ga'|]. change (dotted (a :: b :: segs)) with (a ++ 46 :: dotted (b :: segs)). apply Forall_app. split; [exact Ga'|]. constructor; [tauto|]. apply IH. exact Hs.
Qed.
Lemma symbol_first n : symbol_name n -> exists c r, n = c :: r /\ (letter c \/ c = 95 \/ c = 45) /\ Forall (fun c => name_char c \/ c = 46) r.
Proof.
  intros [(segs & Hne & Hs & ->) _]. destruct segs as [|a segs]; [congruence|]. assert (G := dotted_chars (a :: segs) Hs).
  inversion Hs as [|? ? (c & r & -> & Hc & Hr) Hs']; subst. destruct segs as [|b segs].
  - exists c, r. cbn in *. inversion G; subst. tauto.
  - exists c, (r ++ 46 :: dotted (b :: segs)). split; [reflexivity|]. split; [exact Hc|]. cbn in G. inversion G; subst. assumption.
Qed.
Lemma p_symbol_name_ok n s : symbol_name n -> delim s -> p_symbol_name (n ++ s) = Some (n, s).
Proof.
  intros Hn Hs. assert (Hn0 := Hn). destruct Hn as [(segs & Hne & Hsegs & ->) Hk]. unfold p_symbol_name.
  replace (match p_reserved reserved (dotted segs ++ s) with Some (c :: _) => negb (ident_rest c || (c =? 46)) | Some [] => true | None => false end) with false.
  - destruct segs as [|a segs]; [congruence|].
    assert (exists r, dotted (a :: segs) = a ++ r /\ (r = [] \/ exists r'', r = 46 :: r'')) as (r & Er & Hr).
    { destruct segs as [|b segs]; [exists []; split; [cbn; rewrite app_nil_r; reflexivity|tauto]|]. exists (46 :: dotted (b :: segs)). split; [reflexivity|eauto]. }
    rewrite Er, <- app_assoc. rewrite p_ident_ok; [|inversion Hsegs; assumption|].
    + rewrite (p_segments_ok segs a s (length (r ++ s)) Hsegs (delim_stop s Hs)) with (r := r); [reflexivity| |exact Er].
      assert (Hl : forall l x, Forall ident (x :: l) -> (length l + length x <= length (dotted (x :: l)))%nat).
      { induction l as [|y l IHl]; intros x H; [cbn; lia|]. change (dotted (x :: y :: l)) with (x ++ 46 :: dotted (y :: l)). rewrite app_length. cbn [length].
        inversion H as [|? ? _ Hy]; subst. specialize (IHl y Hy). lia. }
      specialize (Hl segs a Hsegs). rewrite Er, !app_length in *. lia.
    + destruct Hr as [-> |(r'' & ->)]; [cbn [app]; destruct s; [trivial|eapply delim_name_char; exact Hs]|reflexivity].
  - destruct (p_reserved reserved (dotted segs ++ s)) as [r|] eqn:E; [|reflexivity].
    destruct (p_reserved_some _ _ _ E) as (k & Hin & Hl). destruct (lit_delim k (dotted segs) s r (reserved_plain k Hin) Hs Hl) as (r' & Er' & ->).
    destruct (reserved_keywords k Hin) as [Hkw | ->].
    + destruct r' as [|c r']; [exfalso; apply Hk; rewrite Er', app_nil_r; exact Hkw|]. cbn [app].
      assert (G := dotted_chars segs Hsegs). rewrite Er' in G. apply Forall_app in G as [_ G]. inversion G as [|? ? [Hc|Hc] _]; subst.
      * apply ident_rest_iff in Hc. rewrite Hc. reflexivity.
      * rewrite orb_true_r. reflexivity.
    + exfalso. destruct (symbol_first _ Hn0) as (c & r0 & E0 & Hc & _). rewrite E0 in Er'. cbn in Er'. injection Er' as -> _. unfold letter in Hc. lia.
Qed.


(** * Literals *)
Lemma p_string_ok s : forall rest fuel, (length (flat_map escape s) < fuel)%nat -> p_string_body fuel (flat_map escape s ++ 34 :: rest) = Some (Good s, rest).
Proof.
  induction s as [|c s IH]; intros rest fuel Hf; destruct fuel as [|fuel]; try (cbn in Hf; lia).
  - reflexivity.
  - cbn [flat_map] in *. rewrite app_length in Hf. rewrite <- app_assoc. revert Hf. unfold escape at 1 3.
    destruct (c =? 92) eqn:E1; [apply N.eqb_eq in E1 as ->; cbn; intros Hf; rewrite IH by lia; reflexivity|].
    destruct (c =? 34) eqn:E2; [apply N.eqb_eq in E2 as ->; cbn; intros Hf; rewrite IH by lia; reflexivity|].
    destruct (c =? 10) eqn:E3; [apply N.eqb_eq in E3 as ->; cbn; intros Hf; rewrite IH by lia; reflexivity|].
    destruct (c =? 13) eqn:E4; [apply N.eqb_eq in E4 as ->; cbn; intros Hf; rewrite IH by lia; reflexivity|].
    destruct (c =? 9) eqn:E5; [apply N.eqb_eq in E5 as ->; cbn; intros Hf; rewrite IH by lia; reflexivity|].
    cbn [length app]. intros Hf. cbn [p_string_body]. rewrite E1, E2. rewrite IH by lia. reflexivity.
Qed.

(** Decimal numbers. *)
Lemma digits_acc fuel : forall n acc, digits fuel n acc = digits fuel n [] ++ acc.
Proof.
  induction fuel as [|fuel IH]; intros n acc; cbn [digits]; [reflexivity|]. destruct (n <? 10); [reflexivity|]. rewrite IH, (IH _ [_]), <- app_assoc. reflexivity.
Qed.
Lemma nat_value_app a b : nat_value (a ++ b) = fold_left (fun n c => n * 10 + (c - 48)) b (nat_value a).
Proof. apply fold_left_app. Qed.
Lemma digits_ok fuel : forall n, n < 10 ^ N.of_nat fuel -> (0 < fuel)%nat ->
  nat_value (digits fuel n []) = n /\ Forall digit (digits fuel n []) /\ digits fuel n [] <> [].
Proof.
  induction fuel as [|fuel IH]; intros n Hn Hf; [lia|]. cbn [digits]. assert (Hd : n mod 10 < 10) by (apply N.mod_lt; lia).
  destruct (n <? 10) eqn:E.
  - apply N.ltb_lt in E. rewrite N.mod_small by exact E. split; [unfold nat_value; cbn [fold_left]; lia|]. split; [|discriminate]. constructor; [unfold digit; lia|constructor].
  - apply N.ltb_ge in E. rewrite digits_acc. rewrite Nat2N.inj_succ, N.pow_succ_r' in Hn. destruct fuel as [|fuel]; [change (N.of_nat 0) with 0 in Hn; rewrite N.pow_0_r in Hn; lia|].
    destruct (IH (n / 10)) as (H1 & H2 & H3); [apply N.div_lt_upper_bound; [discriminate|exact Hn]|apply Nat.lt_0_succ|]. split; [|split].
    + rewrite nat_value_app, H1. cbn [fold_left]. assert (H := N.div_mod' n 10). clear - H. rewrite (N.add_comm 48), N.add_sub. rewrite N.mul_comm. symmetry. exact H.
    + apply Forall_app. split; [exact H2|]. constructor; [unfold digit; clear - Hd; generalize dependent (n mod 10); intros m Hd; lia|constructor].
    + destruct (digits (S fuel) (n / 10) []); [congruence|discriminate].
Qed.
Lemma show_nat_ok n : nat_value (show_nat n) = n /\ Forall digit (show_nat n) /\ show_nat n <> [].
Proof.
  apply digits_ok; [|lia]. rewrite Nat2N.inj_succ, N2Nat.id. assert (H := N.size_gt n).
  apply N.lt_le_trans with (2 ^ N.size n); [exact H|]. apply N.le_trans with (10 ^ N.size n); [apply N.pow_le_mono_l; lia|apply N.pow_le_mono_r; lia].
Qed.
Lemma digits_class s : Forall digit s -> Forall (fun c => is_digit c = true) s.
Proof. apply Forall_impl. intros c. apply is_digit_iff. Qed.
Lemma delim_digit s : delim s -> match s with c :: _ => is_digit c = false | [] => True end.
Proof. destruct s as [|c s]; [trivial|]. cbn. intros [-> |[-> |[-> | ->]]]; reflexivity. Qed.
Lemma p_digits_ok a s : digits_text a -> match s with c :: _ => is_digit c = false | [] => True end -> p_digits (a ++ s) = Some s.
Proof.
  intros [Hne Ha] Hs. unfold p_digits. rewrite span_stop; [destruct a; [congruence|reflexivity]|apply digits_class; exact Ha|exact Hs].
Qed.
Lemma digits_first a : digits_text a -> exists c r, a = c :: r /\ digit c.
Proof. intros [Hne Ha]. destruct a as [|c r]; [congruence|]. inversion Ha; subst. eauto. Qed.
Lemma p_sign_ok sg a s : sign_text sg -> digits_text a -> p_sign (sg ++ a ++ s) = a ++ s.
Proof.
  intros [-> |[-> | ->]] Ha; cbn [app p_sign N.eqb Pos.eqb orb]; try reflexivity.
  destruct (digits_first a Ha) as (c & r & -> & Hc). cbn [app p_sign]. unfold digit in Hc.
  replace (c =? 43) with false by (symmetry; apply N.eqb_neq; lia). replace (c =? 45) with false by (symmetry; apply N.eqb_neq; lia). reflexivity.
Qed.
Lemma p_nat_ok n s : n < 2 ^ 64 -> delim s -> p_nat (show_nat n ++ s) = Some (Good n, s) /\ p_float_text (show_nat n ++ s) = None.
Proof.
  intros Hn Hs. destruct (show_nat_ok n) as (Hv & Hd & Hne). split.
  - unfold p_nat. rewrite span_stop; [|apply digits_class; exact Hd|apply delim_digit; exact Hs].
    destruct (show_nat n) as [|c r] eqn:E; [congruence|]. rewrite Hv. change 18446744073709551616 with (2 ^ 64). apply N.ltb_lt in Hn. rewrite Hn. reflexivity.
  - unfold p_float_text. change (show_nat n ++ s) with ([] ++ show_nat n ++ s). rewrite p_sign_ok; [|left; reflexivity|split; assumption].
    rewrite p_digits_ok; [|split; assumption|apply delim_digit; exact Hs]. destruct s as [|c s]; [reflexivity|]. cbn [lit].
    apply delim_dot in Hs. replace (46 =? c) with false by (symmetry; apply N.eqb_neq; lia). reflexivity.
Qed.
Lemma consumed_app a s : consumed (a ++ s) s = a.
Proof. unfold consumed. rewrite app_length. replace (length a + length s - length s)%nat with (length a) by lia. rewrite firstn_app, firstn_all, Nat.sub_diag, app_nil_r. reflexivity. Qed.
Lemma p_float_ok t s : float_text t -> delim s -> p_float_text (t ++ s) = Some s.
Proof.
  intros (sg & a & b & e & -> & Hsg & Ha & Hb & He) Hs. unfold p_float_text. rewrite <- !app_assoc. rewrite p_sign_ok by assumption.
  rewrite p_digits_ok; [|exact Ha|reflexivity]. cbn [app lit N.eqb Pos.eqb]. rewrite <- app_assoc.
  destruct He as [-> |(sg' & d & -> & Hsg' & Hd)].
  - cbn [app]. rewrite p_digits_ok; [|exact Hb|apply delim_digit; exact Hs].
    destruct s as [|c s]; [reflexivity|]. cbn in Hs. destruct Hs as [-> |[-> |[-> | ->]]]; reflexivity.
  - cbn [app]. rewrite p_digits_ok; [|exact Hb|reflexivity]. cbn [lit N.eqb Pos.eqb]. rewrite <- app_assoc, p_sign_ok by assumption.
    rewrite p_digits_ok; [reflexivity|exact Hd|apply delim_digit; exact Hs].
Qed.

(** Base 64. *)
Lemma b64_char_value n : n < 64 -> b64_value (b64_char n) = Some n.
Proof.
  intros H. assert (G : forallb (fun n => match b64_value (b64_char n) with Some m => m =? n | None => false end) (map N.of_nat (seq 0 64)) = true) by (vm_compute; reflexivity).
  rewrite forallb_forall in G. specialize (G n). rewrite <- (N2Nat.id n) in G at 1. specialize (G (in_map N.of_nat (seq 0 64) (N.to_nat n) (proj2 (in_seq 64 0 (N.to_nat n)) ltac:(lia)))).
  destruct (b64_value (b64_char n)); [|discriminate]. apply N.eqb_eq in G as ->. reflexivity.
Qed.
Definition b64_class (c : N) : bool := is_alpha c || is_digit c || (c =? 43) || (c =? 47).
Lemma b64_char_class n : n < 64 -> b64_class (b64_char n) = true /\ b64_char n <> 61.
Proof.
  intros H. assert (G : forallb (fun n => b64_class (b64_char n) && negb (b64_char n =? 61)) (map N.of_nat (seq 0 64)) = true) by (vm_compute; reflexivity).
  rewrite forallb_forall in G. specialize (G n). rewrite <- (N2Nat.id n) in G at 1. specialize (G (in_map N.of_nat (seq 0 64) (N.to_nat n) (proj2 (in_seq 64 0 (N.to_nat n)) ltac:(lia)))).
  rewrite andb_true_iff, negb_true_iff, N.eqb_neq in G. exact G.
Qed.

Lemma b64_round n : forall b, (length b <= n)%nat -> Forall (fun c => c < 256) b ->
  b64_decode (b64_encode b) = Some b /\
  exists body pad, b64_encode b = body ++ pad /\ Forall (fun c => b64_class c = true) body /\ Forall (fun c => c = 61) pad.
Proof.
  induction n as [|n IH]; intros b Hl Hb.
  - destruct b; [|cbn in Hl; lia]. split; [reflexivity|]. exists [], []. repeat split; constructor.
  - destruct b as [|x [|y [|z b]]].
    + split; [reflexivity|]. exists [], []. repeat split; constructor.
    + inversion Hb as [|? ? Hx _]; subst. cbn [b64_encode].
      assert (H1 : x / 4 < 64) by (apply N.div_lt_upper_bound; lia). assert (Hm : x mod 4 < 4) by (apply N.mod_lt; lia). assert (H2 : x mod 4 * 16 < 64) by lia.
      split.
      * cbn [b64_decode]. rewrite !b64_char_value by assumption. cbn [N.eqb Pos.eqb andb]. rewrite N.mod_mul by discriminate. cbn [N.eqb]. do 2 f_equal.
        rewrite N.div_mul by discriminate. assert (H := N.div_mod' x 4). lia.
      * exists [b64_char (x / 4); b64_char (x mod 4 * 16)], [61; 61]. split; [reflexivity|]. split; repeat constructor; apply b64_char_class; assumption.
    + inversion Hb as [|? ? Hx Hb1]; subst. inversion Hb1 as [|? ? Hy _]; subst. cbn [b64_encode].
      assert (H1 : x / 4 < 64) by (apply N.div_lt_upper_bound; lia). assert (Hm : x mod 4 < 4) by (apply N.mod_lt; lia).
      assert (Hy1 : y / 16 < 16) by (apply N.div_lt_upper_bound; lia). assert (Hm2 : y mod 16 < 16) by (apply N.mod_lt; lia).
      assert (H2 : x mod 4 * 16 + y / 16 < 64) by lia. assert (H3 : y mod 16 * 4 < 64) by lia.
      split.
      * cbn [b64_decode]. rewrite !b64_char_value by assumption. destruct (b64_char_class _ H3) as [_ Hn]. apply N.eqb_neq in Hn. rewrite Hn.
        cbn [N.eqb Pos.eqb andb]. rewrite N.mod_mul by discriminate. cbn [N.eqb].
        rewrite N.div_add_l, N.div_mul by discriminate. rewrite (N.div_small (y / 16) 16) by exact Hy1.
        rewrite N.add_comm with (n := x mod 4 * 16), N.mod_add by discriminate. rewrite (N.mod_small (y / 16) 16) by exact Hy1.
        assert (G1 := N.div_mod' x 4). assert (G2 := N.div_mod' y 16). do 2 f_equal; [lia|]. f_equal. lia.
      * exists [b64_char (x / 4); b64_char (x mod 4 * 16 + y / 16); b64_char (y mod 16 * 4)], [61]. split; [reflexivity|]. split; repeat constructor; apply b64_char_class; assumption.
    + inversion Hb as [|? ? Hx Hb1]; subst. inversion Hb1 as [|? ? Hy Hb2]; subst. inversion Hb2 as [|? ? Hz Hb3]; subst.
      change (b64_encode (x :: y :: z :: b)) with (b64_char (x / 4) :: b64_char (x mod 4 * 16 + y / 16) :: b64_char (y mod 16 * 4 + z / 64) :: b64_char (z mod 64) :: b64_encode b).
      assert (H1 : x / 4 < 64) by (apply N.div_lt_upper_bound; lia). assert (Hm : x mod 4 < 4) by (apply N.mod_lt; lia).
      assert (Hy1 : y / 16 < 16) by (apply N.div_lt_upper_bound; lia). assert (Hm2 : y mod 16 < 16) by (apply N.mod_lt; lia).
      assert (Hz1 : z / 64 < 4) by (apply N.div_lt_upper_bound; lia). assert (H4 : z mod 64 < 64) by (apply N.mod_lt; lia).
      assert (H2 : x mod 4 * 16 + y / 16 < 64) by lia. assert (H3 : y mod 16 * 4 + z / 64 < 64) by lia.
      destruct (IH b) as [E (body & pad & Eb & Hbody & Hpad)]; [cbn in Hl; lia|exact Hb3|]. split.
      * cbn [b64_decode]. rewrite !b64_char_value by assumption. destruct (b64_char_class _ H3) as [_ Hn]. apply N.eqb_neq in Hn. rewrite Hn.
        destruct (b64_char_class _ H4) as [_ Hn']. apply N.eqb_neq in Hn'. rewrite Hn'. cbn [andb]. rewrite E.
        rewrite !N.div_add_l by discriminate. rewrite (N.div_small (y / 16) 16) by exact Hy1. rewrite (N.div_small (z / 64) 4) by exact Hz1.
        rewrite N.add_comm with (n := x mod 4 * 16), N.mod_add by discriminate. rewrite (N.mod_small (y / 16) 16) by exact Hy1.
        rewrite N.add_comm with (n := y mod 16 * 4), N.mod_add by discriminate. rewrite (N.mod_small (z / 64) 4) by exact Hz1.
        assert (G1 := N.div_mod' x 4). assert (G2 := N.div_mod' y 16). assert (G3 := N.div_mod' z 64). do 2 f_equal; [lia|]. f_equal; [lia|]. f_equal. lia.
      * exists (b64_char (x / 4) :: b64_char (x mod 4 * 16 + y / 16) :: b64_char (y mod 16 * 4 + z / 64) :: b64_char (z mod 64) :: body), pad.
        split; [cbn [app]; rewrite <- Eb; reflexivity|]. split; [|exact Hpad]. repeat constructor; try (apply b64_char_class; assumption). exact Hbody.
Qed.
Lemma b64_solid c : b64_class c = true -> solid c /\ c <> 61 /\ c <> 34.
Proof.
  unfold b64_class, solid, is_ws. rewrite !orb_true_iff, is_alpha_iff, is_digit_iff, !N.eqb_eq, !orb_false_iff, !N.eqb_neq. unfold letter, digit. lia.
Qed.
Lemma skip_class_ok f a : forall s fuel, Forall (fun c => f c = true /\ solid c) a -> match s with c :: _ => f c = false /\ solid c | [] => True end ->
  (length a <= fuel)%nat -> skip_class fuel f (a ++ s) = s.
Proof.
  induction a as [|c a IH]; intros s fuel Ha Hs Hf; cbn [app].
  - destruct fuel; [reflexivity|]. cbn [skip_class]. destruct s as [|c s]; [reflexivity|]. destruct Hs as [H1 H2]. rewrite skip_solid by exact H2. rewrite H1. reflexivity.
  - destruct fuel; [cbn in Hf; lia|]. inversion Ha as [|? ? [H1 H2] Ha']; subst. cbn [skip_class]. rewrite skip_solid by exact H2. rewrite H1. apply IH; [exact Ha'|exact Hs|cbn in Hf; lia].
Qed.
Lemma repeat_class_ok f a s : Forall (fun c => f c = true /\ solid c) a -> match s with c :: _ => f c = false /\ solid c | [] => True end -> repeat_class f (skip (a ++ s)) = s.
Proof.
  intros Ha Hs. destruct a as [|c a]; cbn [app].
  - destruct s as [|c s]; [reflexivity|]. destruct Hs as [H1 H2]. rewrite skip_solid by exact H2. cbn [repeat_class]. rewrite H1. reflexivity.
  - inversion Ha as [|? ? [H1 H2] Ha']; subst. rewrite skip_solid by exact H2. cbn [repeat_class]. rewrite H1. apply skip_class_ok; [exact Ha'|exact Hs|]. rewrite app_length. lia.
Qed.
Lemma solid_quote : solid 34. Proof. split; [reflexivity|discriminate]. Qed.
Lemma p_base64_ok b s : Forall (fun c => c < 256) b -> p_base64 (34 :: b64_encode b ++ 34 :: s) = Some (Good b, s).
Proof.
  intros Hb. destruct (b64_round (length b) b (Nat.le_refl _) Hb) as [E (body & pad & Eb & Hbody & Hpad)]. unfold p_base64.
  change (word """" (34 :: b64_encode b ++ 34 :: s)) with (Some (b64_encode b ++ 34 :: s)). cbv iota.
  change (fun c => is_alpha c || is_digit c || (c =? 43) || (c =? 47)) with b64_class. cbv zeta.
  replace (repeat_class b64_class (skip (b64_encode b ++ 34 :: s))) with (pad ++ 34 :: s).
  - rewrite (repeat_class_ok (fun c => c =? 61) pad (34 :: s)).
    + rewrite skip_solid by apply solid_quote. change (word """" (34 :: s)) with (Some s). cbv iota.
      rewrite consumed_app, E. reflexivity.
    + eapply Forall_impl; [|exact Hpad]. intros c ->. split; [reflexivity|split; [reflexivity|discriminate]].
    + split; [reflexivity|apply solid_quote].
  - symmetry. rewrite Eb, <- app_assoc. apply repeat_class_ok.
    + eapply Forall_impl; [|exact Hbody]. intros c Hc. split; [exact Hc|apply (b64_solid c Hc)].
    + destruct pad as [|c pad]; cbn [app]; [split; [reflexivity|apply solid_quote]|]. inversion Hpad; subst. split; [reflexivity|split; [reflexivity|discriminate]].
Qed.
