(** * The lowering of arrays refines their meaning *)

From Coq Require Import List Arith Lia NArith Bool.
From Verif Require Import BorrowModel BorrowSpec BorrowBits.
Import ListNotations.
Open Scope N_scope.

Section Refine.
Context {V : Type}.
Variable B : N.
Hypothesis HB : 1 <= B.

Notation W := (W B).
Notation wrap := (wrap B).
Notation heap := (@heap V).
Notation bit := (bit B).

Implicit Types (h : heap) (hd : handle) (l : @cells V).

(** ** Lists *)

Lemma replace_nth_length {A} (l : list A) k x :
  length (replace_nth l k x) = length l.
Proof.
  revert k. induction l as [|y l IH]; intros [|k]; cbn; try reflexivity.
  now rewrite IH.
Qed.

Lemma replace_nth_error {A} (l : list A) k x j :
  nth_error (replace_nth l k x) j =
  if Nat.eqb j k
  then match nth_error l j with Some _ => Some x | None => None end
  else nth_error l j.
Proof.
  revert k j. induction l as [|y l IH]; intros k j.
  - cbn [replace_nth]. destruct j; cbn [nth_error];
      match goal with |- context [Nat.eqb ?a ?b] => destruct (Nat.eqb a b) end;
      reflexivity.
  - destruct k, j; cbn; try reflexivity. apply IH.
Qed.

Lemma replace_nth_same {A} (l : list A) k x :
  nth_error l k = Some x -> replace_nth l k x = l.
Proof.
  revert k. induction l as [|y l IH]; intros [|k]; cbn; try reflexivity.
  - now intros [= ->].
  - intro H. now rewrite IH.
Qed.

Lemma put_replace {A} (l : list A) k x : put l k x = replace_nth l k x.
Proof.
  revert k. induction l as [|y l IH]; intros [|k]; cbn; try reflexivity.
  f_equal. apply IH.
Qed.

Lemma full_map l vs : full l = Some vs <-> l = map Some vs.
Proof.
  revert vs. induction l as [|[v|] l IH]; intro vs; cbn [full].
  - destruct vs; cbn; split; congruence.
  - destruct (full l) as [r|] eqn:E.
    + split.
      * intros [= <-]. cbn. f_equal. now apply IH.
      * destruct vs as [|w vs]; cbn; [discriminate|]. intros [= -> H].
        apply IH in H. congruence.
    + split; [discriminate|]. destruct vs as [|w vs]; cbn; [discriminate|].
      intros [= -> H]. apply IH in H. discriminate.
  - split; [discriminate|]. destruct vs; cbn; discriminate.
Qed.

Lemma full_none l : full l = None <-> In None l.
Proof.
  induction l as [|[v|] l IH]; cbn [full].
  - split; [discriminate|intros []].
  - destruct (full l) as [r|].
    + split; [discriminate|]. intros [H|H]; [discriminate|].
      apply IH in H. discriminate.
    + split; [|reflexivity]. intros _. right. now apply IH.
  - split; [|reflexivity]. intros _. now left.
Qed.

Lemma nth_error_N {A} (l : list A) (i : N) :
  i < N.of_nat (length l) -> exists x, nth_error l (N.to_nat i) = Some x.
Proof.
  intro H. destruct (nth_error l (N.to_nat i)) eqn:E; [eauto|].
  apply nth_error_None in E. lia.
Qed.

Lemma nth_error_N_none {A} (l : list A) (i : N) :
  N.of_nat (length l) <= i -> nth_error l (N.to_nat i) = None.
Proof. intro H. apply nth_error_None. lia. Qed.

Lemma nth_error_ext {A} (l1 l2 : list A) :
  length l1 = length l2 ->
  (forall i, i < N.of_nat (length l1) ->
     nth_error l1 (N.to_nat i) = nth_error l2 (N.to_nat i)) -> l1 = l2.
Proof.
  revert l2. induction l1 as [|x l1 IH]; intros [|y l2] E H; try discriminate;
    [reflexivity|].
  pose proof (H 0 ltac:(cbn; lia)) as H0. cbn in H0. injection H0 as ->.
  f_equal. apply IH; [now injection E|]. intros i Hi.
  specialize (H (i + 1) ltac:(cbn [length]; lia)).
  now rewrite N.add_1_r, N2Nat.inj_succ in H.
Qed.

(** ** What the memory of an array must look like *)

Definition ptrs hd : list nat :=
  elems_ptr hd :: match mask_ptr hd with Some p => [p] | None => [] end.

Definition borrowed hd (words : N -> N) (i : N) : bool :=
  match mask_ptr hd with Some _ => bit words (offset hd + i) | None => false end.

Record rep h hd l (len : N) (cs : N -> option V) (mlen : N) (words : N -> N)
    : Prop := {
  r_elems : cell h (elems_ptr hd) = Some (Elems len cs);
  r_mask : forall mp, mask_ptr hd = Some mp ->
             cell h mp = Some (Mask mlen words);
  r_fit : words_fit B mlen words;
  r_len : offset hd + asize hd <= len;
  r_mlen : mask_ptr hd <> None -> offset hd + asize hd <= W * mlen;
  r_lt : offset hd + asize hd + W < 2 ^ W;
  r_bytes : asize hd * esize hd < 2 ^ W;
  r_size : N.of_nat (length l) = asize hd;
  r_cells : forall i, i < asize hd ->
    nth_error l (N.to_nat i) =
      Some (if borrowed hd words i then None else cs (offset hd + i)) /\
    (borrowed hd words i = false -> cs (offset hd + i) <> None)
}.

Definition repr h hd l : Prop :=
  exists len cs mlen words, rep h hd l len cs mlen words.

Lemma ptrs_differ h hd l len cs mlen words mp :
  rep h hd l len cs mlen words -> mask_ptr hd = Some mp ->
  elems_ptr hd <> mp.
Proof.
  intros R E Eq. pose proof (r_elems _ _ _ _ _ _ _ R) as H1.
  pose proof (r_mask _ _ _ _ _ _ _ R _ E) as H2. rewrite Eq in H1. congruence.
Qed.

Lemma repr_live h hd l p : repr h hd l -> In p (ptrs hd) -> cell h p <> None.
Proof.
  intros (len & cs & mlen & words & R) [<-|H].
  - rewrite (r_elems _ _ _ _ _ _ _ R). discriminate.
  - destruct (mask_ptr hd) as [mp|] eqn:E; [|destruct H].
    destruct H as [<-|[]]. rewrite (r_mask _ _ _ _ _ _ _ R _ E). discriminate.
Qed.

Lemma repr_frame h h' hd l :
  (forall p, In p (ptrs hd) -> cell h' p = cell h p) ->
  repr h hd l -> repr h' hd l.
Proof.
  intros F (len & cs & mlen & words & R). exists len, cs, mlen, words.
  destruct R. constructor; auto.
  - rewrite F; [assumption|now left].
  - intros mp E. rewrite F; [auto|]. right. rewrite E. now left.
Qed.

(** ** How operations change the memory *)

Definition hwf h : Prop := forall p, (next h <= p)%nat -> cell h p = None.

Record trans h (ps : list nat) h' : Prop := {
  t_next : (next h <= next h')%nat;
  t_same : forall p, (p < next h)%nat -> ~ In p ps -> cell h' p = cell h p;
  t_wf : hwf h'
}.

(** What is live among the given blocks and the new blocks. *)
Definition cleaned h (ps : list nat) h' (new : list nat) : Prop :=
  forall p, In p ps \/ (next h <= p)%nat -> cell h' p <> None -> In p new.

Lemma live_lt h p : hwf h -> cell h p <> None -> (p < next h)%nat.
Proof.
  intros Hw Hl. destruct (Nat.lt_ge_cases p (next h)); [assumption|].
  now rewrite Hw in Hl.
Qed.

Lemma trans_refl h ps : hwf h -> trans h ps h.
Proof. intro H. constructor; auto. Qed.

Lemma trans_trans h1 h2 h3 ps :
  trans h1 ps h2 -> trans h2 ps h3 -> trans h1 ps h3.
Proof.
  intros [A1 A2 A3] [B1 B2 B3]. constructor; [lia| |assumption].
  intros p Hp Hn. rewrite B2 by (try assumption; lia). now apply A2.
Qed.

Lemma trans_weaken h h' ps ps' :
  (forall p, In p ps -> In p ps') -> trans h ps h' -> trans h ps' h'.
Proof. intros H [A1 A2 A3]. constructor; auto. Qed.

Lemma updated_trans_h h p b h' ps :
  hwf h -> cell h p <> None -> In p ps -> updated h p b h' -> trans h ps h'.
Proof.
  intros Hw Hl Hp (N1 & C1 & F1). pose proof (live_lt _ _ Hw Hl) as L.
  constructor; [lia| |].
  - intros q Hq Hn. apply F1. intros ->. contradiction.
  - intros q Hq. rewrite N1 in Hq. rewrite F1; [now apply Hw|]. lia.
Qed.

Lemma cleaned_refl h hd l : hwf h -> repr h hd l -> cleaned h (ptrs hd) h (ptrs hd).
Proof.
  intros Hw R p [H|H] Hl; [assumption|]. now rewrite Hw in Hl.
Qed.

Lemma cleaned_updated h hd p b h' :
  hwf h -> In p (ptrs hd) -> cell h p <> None -> updated h p b h' ->
  cleaned h (ptrs hd) h' (ptrs hd).
Proof.
  intros Hw Hp Hl (N1 & C1 & F1) q [H|H] Hq; [assumption|].
  exfalso. apply Hq. pose proof (live_lt _ _ Hw Hl) as L.
  rewrite F1; [now apply Hw|]. lia.
Qed.

(** ** Single elements *)

Lemma check_load h hd l i :
  repr h hd l -> i < asize hd ->
  match at_index l i with
  | Some None => check_present B h hd (offset hd + i) = Panic AlreadyBorrowed
  | Some (Some v) => check_present B h hd (offset hd + i) = Ok h /\
      load_elem h (elems_ptr hd) (offset hd + i) = Ok v
  | None => False
  end.
Proof.
  intros (len & cs & mlen & words & R) Hi. unfold at_index.
  destruct (r_cells _ _ _ _ _ _ _ R i Hi) as (-> & Hs).
  assert (check_present B h hd (offset hd + i) =
          if borrowed hd words i then Panic AlreadyBorrowed else Ok h) as ->.
  { unfold check_present, borrowed. destruct (mask_ptr hd) as [mp|] eqn:E;
      [|reflexivity].
    apply (check_not_borrowed B HB) with (len := mlen).
    - exact (r_mask _ _ _ _ _ _ _ R _ E).
    - pose proof (r_mlen _ _ _ _ _ _ _ R). rewrite E in H.
      specialize (H ltac:(discriminate)). lia. }
  destruct (borrowed hd words i); [reflexivity|].
  specialize (Hs eq_refl). destruct (cs (offset hd + i)) as [v|] eqn:Ec;
    [|congruence].
  split; [reflexivity|]. unfold load_elem. rewrite (r_elems _ _ _ _ _ _ _ R).
  pose proof (r_len _ _ _ _ _ _ _ R) as HL.
  assert (offset hd + i <? len = true) as -> by (apply N.ltb_lt; lia).
  now rewrite Ec.
Qed.

Lemma store_spec h p len cs i v :
  cell h p = Some (Elems len cs) -> i < len ->
  exists h', store_elem h p i v = Ok h' /\
    updated h p (Some (Elems len (fun j => if j =? i then Some v else cs j))) h'.
Proof.
  intros Hc Hi. unfold store_elem. rewrite Hc. apply N.ltb_lt in Hi. rewrite Hi.
  eexists. split; [reflexivity|]. apply updated_set.
Qed.

(** Writing an element that is present, or that has just been given back:
    the mask says that it is present. *)
Lemma store_present h hd l len cs mlen words i v :
  rep h hd l len cs mlen words -> i < asize hd -> borrowed hd words i = false ->
  exists h', store_elem h (elems_ptr hd) (offset hd + i) v = Ok h' /\
    (exists b, updated h (elems_ptr hd) b h') /\
    repr h' hd (replace_at l i (Some v)).
Proof.
  intros R Hi Hb.
  destruct (store_spec h (elems_ptr hd) len cs (offset hd + i) v
              (r_elems _ _ _ _ _ _ _ R)) as (h' & E & U).
  { pose proof (r_len _ _ _ _ _ _ _ R). lia. }
  exists h'. split; [exact E|]. split; [eauto|].
  exists len, (fun j => if j =? offset hd + i then Some v else cs j), mlen, words.
  destruct U as (N1 & C1 & F1). constructor; try (destruct R; assumption).
  - intros mp Em. rewrite F1; [exact (r_mask _ _ _ _ _ _ _ R _ Em)|].
    intros ->. exact (ptrs_differ _ _ _ _ _ _ _ _ R Em eq_refl).
  - unfold replace_at. rewrite replace_nth_length. exact (r_size _ _ _ _ _ _ _ R).
  - intros j Hj. unfold replace_at. rewrite replace_nth_error.
    destruct (r_cells _ _ _ _ _ _ _ R j Hj) as (Hn & Hs).
    destruct (N.eqb_spec (offset hd + j) (offset hd + i)) as [Ej|Ej].
    + assert (j = i) as -> by lia. rewrite Nat.eqb_refl, Hn, Hb.
      split; [reflexivity|discriminate].
    + assert (Nat.eqb (N.to_nat j) (N.to_nat i) = false) as ->
        by (apply Nat.eqb_neq; lia).
      split; [exact Hn|exact Hs].
Qed.

(** Flipping the bit of an element in the mask. *)
Lemma toggle_rep h hd l len cs mlen words i mp h' :
  rep h hd l len cs mlen words -> i < asize hd -> mask_ptr hd = Some mp ->
  updated h mp (Some (Mask mlen (toggle B words (offset hd + i)))) h' ->
  borrowed hd words i = false ->
  rep h' hd (replace_at l i None) len cs mlen (toggle B words (offset hd + i)).
Proof.
  intros R Hi Em (N1 & C1 & F1) Hb.
  constructor; try (destruct R; assumption).
  - rewrite F1; [exact (r_elems _ _ _ _ _ _ _ R)|].
    exact (ptrs_differ _ _ _ _ _ _ _ _ R Em).
  - intros mp' E. rewrite Em in E. injection E as <-. exact C1.
  - apply (toggle_fit B HB). exact (r_fit _ _ _ _ _ _ _ R).
  - unfold replace_at. rewrite replace_nth_length. exact (r_size _ _ _ _ _ _ _ R).
  - intros j Hj. unfold replace_at. rewrite replace_nth_error.
    destruct (r_cells _ _ _ _ _ _ _ R j Hj) as (Hn & Hs).
    unfold borrowed in *. rewrite Em in *. rewrite (toggle_bit B HB).
    destruct (N.eqb_spec (offset hd + j) (offset hd + i)) as [Ej|Ej].
    + assert (j = i) as -> by lia. rewrite Nat.eqb_refl, Hn, Hb.
      split; [reflexivity|discriminate].
    + assert (Nat.eqb (N.to_nat j) (N.to_nat i) = false) as ->
        by (apply Nat.eqb_neq; lia).
      split; [exact Hn|exact Hs].
Qed.

(** A change of an array in place. *)
Record in_place h hd h' hd' l' : Prop := {
  ip_trans : trans h (ptrs hd) h';
  ip_repr : repr h' hd' l';
  ip_ptrs : forall p, In p (ptrs hd') -> In p (ptrs hd) \/ (next h <= p)%nat;
  ip_clean : cleaned h (ptrs hd) h' (ptrs hd')
}.

Lemma in_place_refl h hd l : hwf h -> repr h hd l -> in_place h hd h hd l.
Proof.
  intros Hw R. constructor; auto using trans_refl.
  eapply cleaned_refl; eassumption.
Qed.

Lemma in_place_updated h hd l p b h' l' :
  hwf h -> repr h hd l -> In p (ptrs hd) -> updated h p b h' ->
  repr h' hd l' -> in_place h hd h' hd l'.
Proof.
  intros Hw R Hp U R'. pose proof (repr_live _ _ _ _ R Hp) as L.
  constructor; auto.
  - eapply updated_trans_h; eassumption.
  - eapply cleaned_updated; eassumption.
Qed.

Lemma in_place_trans h hd h1 hd1 l1 h2 hd2 l2 :
  hwf h -> in_place h hd h1 hd1 l1 -> in_place h1 hd1 h2 hd2 l2 ->
  in_place h hd h2 hd2 l2.
Proof.
  intros Hw [T1 R1 P1 C1] [T2 R2 P2 C2]. destruct T1 as [A1 A2 A3], T2 as [B1 B2 B3].
  constructor; [constructor|assumption| |].
  - lia.
  - intros p Hp Hn. rewrite B2; [now apply A2|lia|].
    intro H. destruct (P1 _ H); [contradiction|lia].
  - assumption.
  - intros p Hp. destruct (P2 _ Hp) as [H|H]; [now apply P1|right; lia].
  - intros p Hp Hl. destruct (in_dec Nat.eq_dec p (ptrs hd1)) as [I|I].
    { apply C2; auto. }
    destruct (Nat.lt_ge_cases p (next h1)) as [L|L].
    + exfalso. apply I, C1; [exact Hp|]. now rewrite <- B2.
    + apply C2; auto.
Qed.

Lemma idx_wrap hd i h l : repr h hd l -> i < asize hd ->
  wrap (i + offset hd) = offset hd + i.
Proof.
  intros (len & cs & mlen & words & R) Hi.
  pose proof (r_lt _ _ _ _ _ _ _ R). rewrite wrap_small by lia. lia.
Qed.

Lemma idx_wrap' hd i h l : repr h hd l -> i < asize hd ->
  wrap (offset hd + i) = offset hd + i.
Proof.
  intros (len & cs & mlen & words & R) Hi.
  pose proof (r_lt _ _ _ _ _ _ _ R). rewrite wrap_small by lia. lia.
Qed.

Lemma size_const hd h l : repr h hd l -> const_int B (asize hd) = asize hd.
Proof.
  intros (len & cs & mlen & words & R). pose proof (r_lt _ _ _ _ _ _ _ R).
  apply wrap_small. lia.
Qed.

Lemma size_length hd h l : repr h hd l -> asize hd = N.of_nat (length l).
Proof. intros (len & cs & mlen & words & R). now destruct R. Qed.

(** [get] *)
Lemma get_spec h hd l i : repr h hd l -> i < 2 ^ W ->
  emit_get B h hd i =
  match at_index l i with
  | None => Ok (h, None)
  | Some None => Panic AlreadyBorrowed
  | Some (Some v) => Ok (h, Some v)
  end.
Proof.
  intros R _. unfold emit_get. rewrite (size_const _ _ _ R).
  destruct (N.ltb_spec i (asize hd)) as [L|L].
  - rewrite (idx_wrap _ _ _ _ R L). pose proof (check_load _ _ _ _ R L) as C.
    destruct (at_index l i) as [[v|]|]; [|now rewrite C|destruct C].
    destruct C as (-> & H2). cbn [bind]. now rewrite H2.
  - rewrite (size_length _ _ _ R) in L. unfold at_index.
    now rewrite nth_error_N_none.
Qed.

(** [set] *)
Lemma set_spec h hd l i x : hwf h -> repr h hd l -> i < 2 ^ W ->
  match at_index l i with
  | None => emit_set B h hd i x = Ok (h, (false, x))
  | Some None => emit_set B h hd i x = Panic AlreadyBorrowed
  | Some (Some v) => exists h', emit_set B h hd i x = Ok (h', (true, v)) /\
      in_place h hd h' hd (replace_at l i (Some x))
  end.
Proof.
  intros Hw R _. unfold emit_set. rewrite (size_const _ _ _ R).
  destruct (N.ltb_spec i (asize hd)) as [L|L].
  - rewrite (idx_wrap _ _ _ _ R L). pose proof (check_load _ _ _ _ R L) as C.
    destruct (at_index l i) as [[v|]|] eqn:Ea; [|now rewrite C|destruct C].
    destruct C as (-> & H2). cbn [bind]. rewrite H2. cbn [bind].
    pose proof R as R0.
    destruct R as (len & cs & mlen & words & R).
    destruct (store_present _ _ _ _ _ _ _ _ x R L) as (h' & -> & (b & U) & R').
    { destruct (r_cells _ _ _ _ _ _ _ R i L) as (Hn & _).
      unfold at_index in Ea. rewrite Ea in Hn.
      destruct (borrowed hd words i); [discriminate|reflexivity]. }
    cbn [bind]. exists h'. split; [reflexivity|].
    eapply in_place_updated; try eassumption. now left.
  - rewrite (size_length _ _ _ R) in L. unfold at_index.
    now rewrite nth_error_N_none.
Qed.

Lemma present_not_borrowed h hd l len cs mlen words i v :
  rep h hd l len cs mlen words -> i < asize hd ->
  at_index l i = Some (Some v) -> borrowed hd words i = false.
Proof.
  intros R L Ea. destruct (r_cells _ _ _ _ _ _ _ R i L) as (Hn & _).
  unfold at_index in Ea. rewrite Ea in Hn.
  destruct (borrowed hd words i); [discriminate|reflexivity].
Qed.

(** A store to an element that is present. *)
Lemma store_at h hd l i v x : hwf h -> repr h hd l -> i < asize hd ->
  at_index l i = Some (Some v) ->
  exists h', store_elem h (elems_ptr hd) (offset hd + i) x = Ok h' /\
    in_place h hd h' hd (replace_at l i (Some x)).
Proof.
  intros Hw R L Ea. pose proof R as R0.
  destruct R as (len & cs & mlen & words & R).
  destruct (store_present _ _ _ _ _ _ _ _ x R L
              (present_not_borrowed _ _ _ _ _ _ _ _ _ R L Ea))
    as (h' & E & (b & U) & R').
  exists h'. split; [exact E|].
  eapply in_place_updated; try eassumption. now left.
Qed.

Lemma hwf_in_place h hd h' hd' l : in_place h hd h' hd' l -> hwf h'.
Proof. intro I. exact (t_wf _ _ _ (ip_trans _ _ _ _ _ I)). Qed.

Lemma at_replace l i j x : j < N.of_nat (length l) ->
  at_index (replace_at l i x) j =
  if j =? i then Some x else at_index l j.
Proof.
  intro H. unfold at_index, replace_at. rewrite replace_nth_error.
  destruct (N.eqb_spec j i) as [->|E].
  - rewrite Nat.eqb_refl. destruct (nth_error_N l i H) as (y & ->). reflexivity.
  - assert (Nat.eqb (N.to_nat j) (N.to_nat i) = false) as ->
      by (apply Nat.eqb_neq; lia). reflexivity.
Qed.

(** [swap] *)
Lemma swap_spec h hd l i j : hwf h -> repr h hd l -> i < 2 ^ W -> j < 2 ^ W ->
  match at_index l i, at_index l j with
  | Some (Some x), Some (Some y) =>
      exists h', emit_swap B h hd i j = Ok (h', true) /\
        in_place h hd h' hd (replace_at (replace_at l i (Some y)) j (Some x))
  | Some _, Some _ => emit_swap B h hd i j = Panic AlreadyBorrowed
  | _, _ => emit_swap B h hd i j = Ok (h, false)
  end.
Proof.
  intros Hw R _ _. unfold emit_swap. rewrite (size_const _ _ _ R).
  destruct (N.ltb_spec i (asize hd)) as [Li|Li]; cbn [andb].
  2:{ rewrite (size_length _ _ _ R) in Li. unfold at_index.
      now rewrite (nth_error_N_none l i Li). }
  destruct (N.ltb_spec j (asize hd)) as [Lj|Lj].
  2:{ rewrite (size_length _ _ _ R) in Lj. unfold at_index.
      rewrite (nth_error_N_none l j Lj).
      destruct (nth_error l (N.to_nat i)) as [[?|]|]; reflexivity. }
  rewrite (idx_wrap _ _ _ _ R Li), (idx_wrap _ _ _ _ R Lj).
  pose proof (check_load _ _ _ _ R Li) as Ci.
  pose proof (check_load _ _ _ _ R Lj) as Cj.
  destruct (at_index l i) as [[x|]|] eqn:Ei; [| |destruct Ci].
  2:{ rewrite Ci. destruct (at_index l j) as [[y|]|]; [reflexivity|reflexivity|destruct Cj]. }
  destruct Ci as (-> & Ci2). cbn [bind].
  destruct (at_index l j) as [[y|]|] eqn:Ej; [|now rewrite Cj|destruct Cj].
  destruct Cj as (-> & Cj2). cbn [bind].
  rewrite Ci2. cbn [bind]. rewrite Cj2. cbn [bind].
  destruct (store_at _ _ _ _ _ y Hw R Li Ei) as (h1 & -> & I1). cbn [bind].
  destruct (store_at h1 hd _ j (if j =? i then y else y) x
              (hwf_in_place _ _ _ _ _ I1) (ip_repr _ _ _ _ _ I1) Lj) as (h2 & -> & I2).
  { rewrite at_replace by (now rewrite <- (size_length _ _ _ R)).
    destruct (j =? i); [reflexivity|exact Ej]. }
  cbn [bind]. exists h2. split; [reflexivity|].
  eapply in_place_trans; eassumption.
Qed.

(** ** Popping *)

Lemma pop_left_rep h hd v r : repr h hd (Some v :: r) ->
  repr h {| elems_ptr := elems_ptr hd; mask_ptr := mask_ptr hd;
            offset := offset hd + 1; asize := asize hd - 1;
            esize := esize hd |} r.
Proof.
  intros (len & cs & mlen & words & R). exists len, cs, mlen, words.
  destruct R as [R1 R2 R3 R4 R5 R6 R7 R8 R9]. cbn [length] in R8.
  constructor; cbn [elems_ptr mask_ptr offset asize esize]; auto; try lia.
  - intro H. specialize (R5 H). lia.
  - intros i Hi. specialize (R9 (i + 1) ltac:(lia)).
    rewrite N.add_1_r, N2Nat.inj_succ in R9. cbn in R9.
    unfold borrowed in *. cbn.
    replace (offset hd + 1 + i) with (offset hd + N.succ i) by lia. exact R9.
Qed.

Lemma pop_right_rep h hd x r : repr h hd (r ++ [x]) ->
  repr h {| elems_ptr := elems_ptr hd; mask_ptr := mask_ptr hd;
            offset := offset hd; asize := asize hd - 1;
            esize := esize hd |} r.
Proof.
  intros (len & cs & mlen & words & R). exists len, cs, mlen, words.
  destruct R as [R1 R2 R3 R4 R5 R6 R7 R8 R9].
  rewrite app_length in R8. cbn [length] in R8.
  constructor; cbn [elems_ptr mask_ptr offset asize esize]; auto; try lia.
  - intro H. specialize (R5 H). lia.
  - intros i Hi. specialize (R9 i ltac:(lia)).
    rewrite nth_error_app1 in R9 by lia. exact R9.
Qed.

Definition popped hd (o : N) : handle :=
  {| elems_ptr := elems_ptr hd; mask_ptr := mask_ptr hd;
     offset := o; asize := asize hd - 1; esize := esize hd |}.

Lemma in_place_popped h hd l o l' :
  hwf h -> repr h hd l -> repr h (popped hd o) l' ->
  in_place h hd h (popped hd o) l'.
Proof.
  intros Hw R R'. constructor; auto using trans_refl.
  exact (cleaned_refl _ _ _ Hw R).
Qed.

Lemma pop_left_spec h hd l : hwf h -> repr h hd l ->
  match l with
  | [] => emit_pop B h hd true = Ok (h, None)
  | None :: _ => emit_pop B h hd true = Panic AlreadyBorrowed
  | Some v :: r => exists hd', emit_pop B h hd true = Ok (h, Some (v, hd')) /\
      kind_of hd' = kind_of hd /\ in_place h hd h hd' r
  end.
Proof.
  intros Hw R. unfold emit_pop. pose proof (size_length _ _ _ R) as Hs.
  destruct l as [|x r].
  - cbn in Hs. now rewrite Hs.
  - assert (0 < asize hd) as Hp by (rewrite Hs; cbn [length]; lia).
    destruct (N.eqb_spec (asize hd) 0); [lia|].
    pose proof (check_load _ _ _ 0 R Hp) as C. rewrite N.add_0_r in C.
    cbn in C. destruct x as [v|]; [|now rewrite C].
    destruct C as (-> & H2). cbn [bind]. rewrite H2. cbn [bind].
    eexists. split; [reflexivity|].
    assert (wrap (offset hd + const_int B 1) = offset hd + 1) as ->.
    { unfold const_int. pose proof (W_pos B HB). pose proof (W_lt B).
      rewrite (wrap_small B 1) by lia.
      destruct R as (len & cs & mlen & words & R).
      pose proof (r_lt _ _ _ _ _ _ _ R). apply wrap_small. lia. }
    split; [reflexivity|]. apply (in_place_popped h hd (Some v :: r)); auto.
    now apply pop_left_rep in R.
Qed.

Lemma pop_right_spec h hd l : hwf h -> repr h hd l ->
  match rev l with
  | [] => emit_pop B h hd false = Ok (h, None)
  | None :: _ => emit_pop B h hd false = Panic AlreadyBorrowed
  | Some v :: r => exists hd', emit_pop B h hd false = Ok (h, Some (v, hd')) /\
      kind_of hd' = kind_of hd /\ in_place h hd h hd' (rev r)
  end.
Proof.
  intros Hw R. unfold emit_pop. pose proof (size_length _ _ _ R) as Hs.
  destruct (rev l) as [|x r] eqn:Er.
  - rewrite <- (rev_involutive l), Er in Hs. cbn in Hs. now rewrite Hs.
  - assert (l = rev r ++ [x]) as El by (rewrite <- (rev_involutive l), Er; reflexivity).
    rewrite El, app_length in Hs. cbn [length] in Hs.
    destruct (N.eqb_spec (asize hd) 0); [lia|].
    pose proof (size_const _ _ _ R) as Hc. unfold const_int in *.
    assert (wrap (asize hd - 1) = asize hd - 1) as ->.
    { destruct R as (len & cs & mlen & words & R).
      pose proof (r_lt _ _ _ _ _ _ _ R). apply wrap_small. lia. }
    rewrite (idx_wrap' _ _ _ _ R) by lia.
    pose proof (check_load _ _ _ (asize hd - 1) R ltac:(lia)) as C.
    assert (at_index l (asize hd - 1) = Some x) as Ea.
    { rewrite El. unfold at_index. rewrite nth_error_app2 by lia.
      replace (N.to_nat (asize hd - 1) - length (rev r))%nat with O by lia.
      reflexivity. }
    rewrite Ea in C. destruct x as [v|]; [|now rewrite C].
    destruct C as (-> & H2). cbn [bind]. rewrite H2. cbn [bind].
    eexists. split; [reflexivity|]. split; [reflexivity|].
    apply (in_place_popped h hd l); auto. rewrite El in R.
    now apply pop_right_rep in R.
Qed.

(** ** Unpacking *)

Lemma skipn_cons l k : (k < length l)%nat ->
  exists x, nth_error l k = Some x /\ skipn k l = x :: skipn (S k) l.
Proof.
  revert k. induction l as [|y l IH]; intros k H; [cbn in H; lia|].
  destruct k as [|k]; [now exists y|]. cbn in H.
  destruct (IH k ltac:(lia)) as (x & H1 & H2). exists x. split; [exact H1|exact H2].
Qed.

Lemma unpack_from_spec h hd l : repr h hd l ->
  forall n i, (N.to_nat i + n = length l)%nat ->
  unpack_from B h hd i n =
  match full (skipn (N.to_nat i) l) with
  | Some vs => Ok (h, vs)
  | None => Panic AlreadyBorrowed
  end.
Proof.
  intro R. pose proof (size_length _ _ _ R) as Hs.
  induction n as [|n IH]; intros i Hi.
  - cbn [unpack_from]. rewrite skipn_all2 by lia. reflexivity.
  - cbn [unpack_from]. cbv zeta.
    destruct (skipn_cons l (N.to_nat i) ltac:(lia)) as (x & Hx & ->).
    assert (i < asize hd) as L by lia.
    assert (const_int B i = i) as ->.
    { destruct R as (len & cs & mlen & words & R).
      pose proof (r_lt _ _ _ _ _ _ _ R). apply wrap_small. lia. }
    rewrite (idx_wrap' _ _ _ _ R L).
    pose proof (check_load _ _ _ _ R L) as C. unfold at_index in C.
    rewrite Hx in C. destruct x as [v|]; cbn [full]; [|now rewrite C].
    destruct C as (-> & H2). cbn [bind]. rewrite H2. cbn [bind].
    rewrite (IH (i + 1)) by lia.
    replace (N.to_nat (i + 1)) with (S (N.to_nat i)) by lia.
    now destruct (full (skipn (S (N.to_nat i)) l)).
Qed.

Lemma unpack_spec h hd l : repr h hd l ->
  emit_unpack B h hd =
  match full l with Some vs => Ok (h, vs) | None => Panic AlreadyBorrowed end.
Proof.
  intro R. unfold emit_unpack.
  rewrite (unpack_from_spec _ _ _ R) by (pose proof (size_length _ _ _ R); lia).
  reflexivity.
Qed.

(** ** Borrowing and returning *)

Lemma bounds_spec h hd l i : repr h hd l ->
  build_bounds_check B (asize hd) i =
  match at_index l i with Some _ => Ok tt | None => Panic OutOfBounds end.
Proof.
  intro R. unfold build_bounds_check. rewrite (size_const _ _ _ R).
  rewrite (size_length _ _ _ R). unfold at_index.
  destruct (N.ltb_spec i (N.of_nat (length l))) as [L|L].
  - now destruct (nth_error_N l i L) as (x & ->).
  - now rewrite nth_error_N_none.
Qed.

Lemma at_lt h hd l i x : repr h hd l -> at_index l i = Some x -> i < asize hd.
Proof.
  intros R E. rewrite (size_length _ _ _ R). unfold at_index in E.
  assert (nth_error l (N.to_nat i) <> None) as H by congruence.
  apply nth_error_Some in H. lia.
Qed.

Lemma mask_in_ptrs hd mp : mask_ptr hd = Some mp -> In mp (ptrs hd).
Proof. intro E. right. rewrite E. now left. Qed.

Lemma borrow_spec h hd l mp i : hwf h -> repr h hd l -> mask_ptr hd = Some mp ->
  match at_index l i with
  | None => emit_borrow B h hd mp i = Panic OutOfBounds
  | Some None => emit_borrow B h hd mp i = Panic AlreadyBorrowed
  | Some (Some v) => exists h', emit_borrow B h hd mp i = Ok (h', v) /\
      in_place h hd h' hd (replace_at l i None)
  end.
Proof.
  intros Hw R Em. unfold emit_borrow. rewrite (bounds_spec _ _ _ _ R).
  destruct (at_index l i) as [x|] eqn:Ea; [|reflexivity].
  cbn [bind]. pose proof (at_lt _ _ _ _ _ R Ea) as L.
  rewrite (idx_wrap _ _ _ _ R L). pose proof R as R0.
  destruct R as (len & cs & mlen & words & R).
  pose proof (r_mlen _ _ _ _ _ _ _ R ltac:(congruence)) as Hm.
  pose proof (check_borrow B HB h mp mlen words (offset hd + i)
                (r_mask _ _ _ _ _ _ _ R _ Em) ltac:(lia)) as C.
  destruct (r_cells _ _ _ _ _ _ _ R i L) as (Hn & Hs).
  unfold at_index in Ea. rewrite Ea in Hn. injection Hn as Hx.
  assert (borrowed hd words i = bit words (offset hd + i)) as Eb
    by (unfold borrowed; now rewrite Em).
  destruct (bit words (offset hd + i)) eqn:Ebit.
  - rewrite Eb in Hx. subst x. now rewrite C.
  - destruct C as (h' & -> & U). cbn [bind].
    rewrite Eb in Hx. specialize (Hs Eb).
    destruct x as [v|]; [|congruence].
    pose proof (toggle_rep _ _ _ _ _ _ _ _ _ _ R L Em U Eb) as R'.
    assert (load_elem h' (elems_ptr hd) (offset hd + i) = Ok v) as ->.
    { unfold load_elem. rewrite (r_elems _ _ _ _ _ _ _ R').
      pose proof (r_len _ _ _ _ _ _ _ R') as HL.
      assert (offset hd + i <? len = true) as -> by (apply N.ltb_lt; lia).
      now rewrite <- Hx. }
    cbn [bind]. exists h'. split; [reflexivity|].
    apply (in_place_updated h hd l mp
             (Some (Mask mlen (toggle B words (offset hd + i))))); auto.
    + now apply mask_in_ptrs.
    + now exists len, cs, mlen, (toggle B words (offset hd + i)).
Qed.

Lemma return_spec h hd l mp i v : hwf h -> repr h hd l -> mask_ptr hd = Some mp ->
  match at_index l i with
  | None => emit_return B h hd mp i v = Panic OutOfBounds
  | Some (Some _) => emit_return B h hd mp i v = Panic NotBorrowed
  | Some None => exists h', emit_return B h hd mp i v = Ok h' /\
      in_place h hd h' hd (replace_at l i (Some v))
  end.
Proof.
  intros Hw R Em. unfold emit_return. rewrite (bounds_spec _ _ _ _ R).
  destruct (at_index l i) as [x|] eqn:Ea; [|reflexivity].
  cbn [bind]. pose proof (at_lt _ _ _ _ _ R Ea) as L.
  rewrite (idx_wrap _ _ _ _ R L). pose proof R as R0.
  destruct R as (len & cs & mlen & words & R).
  pose proof (r_mlen _ _ _ _ _ _ _ R ltac:(congruence)) as Hm.
  pose proof (check_return B HB h mp mlen words (offset hd + i)
                (r_mask _ _ _ _ _ _ _ R _ Em) ltac:(lia)) as C.
  destruct (r_cells _ _ _ _ _ _ _ R i L) as (Hn & Hs).
  unfold at_index in Ea. rewrite Ea in Hn. injection Hn as Hx.
  assert (borrowed hd words i = bit words (offset hd + i)) as Eb
    by (unfold borrowed; now rewrite Em).
  destruct (bit words (offset hd + i)) eqn:Ebit.
  2:{ rewrite Eb in Hx. specialize (Hs Eb). subst x.
      destruct (cs (offset hd + i)); [|congruence]. now rewrite C. }
  rewrite Eb in Hx. subst x.
  destruct C as (h1 & -> & U1). cbn [bind].
  destruct (store_spec h1 (elems_ptr hd) len cs (offset hd + i) v)
    as (h2 & E2 & U2).
  { destruct U1 as (_ & _ & F1). rewrite F1; [exact (r_elems _ _ _ _ _ _ _ R)|].
    exact (ptrs_differ _ _ _ _ _ _ _ _ R Em). }
  { pose proof (r_len _ _ _ _ _ _ _ R). lia. }
  exists h2. split; [exact E2|].
  pose proof (ptrs_differ _ _ _ _ _ _ _ _ R Em) as Hd.
  destruct U1 as (N1 & C1 & F1), U2 as (N2 & C2 & F2).
  pose proof (live_lt h (elems_ptr hd) Hw
                ltac:(rewrite (r_elems _ _ _ _ _ _ _ R); discriminate)) as Le.
  pose proof (live_lt h mp Hw
                ltac:(rewrite (r_mask _ _ _ _ _ _ _ R _ Em); discriminate)) as Lm.
  assert (Hother : forall q, q <> elems_ptr hd -> q <> mp -> cell h2 q = cell h q).
  { intros q H1 H2. rewrite F2, F1; auto. }
  constructor; auto.
  - constructor; [lia| |].
    + intros p Hp Hni. apply Hother; intros ->; apply Hni; [now left|].
      now apply mask_in_ptrs.
    + intros p Hp. rewrite Hother; [apply Hw; lia|lia|lia].
  - exists len, (fun j => if j =? offset hd + i then Some v else cs j), mlen,
      (toggle B words (offset hd + i)).
    constructor; try (destruct R; assumption).
    + intros mp' E. rewrite Em in E. injection E as <-.
      rewrite F2 by auto. exact C1.
    + apply (toggle_fit B HB). exact (r_fit _ _ _ _ _ _ _ R).
    + unfold replace_at. rewrite replace_nth_length. exact (r_size _ _ _ _ _ _ _ R).
    + intros j Hj. unfold replace_at. rewrite replace_nth_error.
      destruct (r_cells _ _ _ _ _ _ _ R j Hj) as (Hn & Hs').
      unfold borrowed in *. rewrite Em in *. rewrite (toggle_bit B HB).
      destruct (N.eqb_spec (offset hd + j) (offset hd + i)) as [Ej|Ej].
      * assert (j = i) as -> by lia. rewrite Nat.eqb_refl, Hn, Ebit.
        split; [reflexivity|discriminate].
      * assert (Nat.eqb (N.to_nat j) (N.to_nat i) = false) as ->
          by (apply Nat.eqb_neq; lia).
        split; [exact Hn|exact Hs'].
  - intros q [H|H] Hl; [assumption|]. exfalso. apply Hl.
    rewrite Hother; [now apply Hw|lia|lia].
Qed.

Lemma is_borrowed_spec h hd l mp i : repr h hd l -> mask_ptr hd = Some mp ->
  emit_is_borrowed B h hd mp i =
  match at_index l i with
  | None => Panic OutOfBounds
  | Some x => Ok (is_hole x)
  end.
Proof.
  intros R Em. unfold emit_is_borrowed. rewrite (bounds_spec _ _ _ _ R).
  destruct (at_index l i) as [x|] eqn:Ea; [|reflexivity].
  cbn [bind]. pose proof (at_lt _ _ _ _ _ R Ea) as L.
  rewrite (idx_wrap _ _ _ _ R L). unfold build_is_borrowed_bit.
  destruct R as (len & cs & mlen & words & R).
  pose proof (r_mlen _ _ _ _ _ _ _ R ltac:(congruence)) as Hm.
  rewrite (inspect_spec B HB h mp mlen words (offset hd + i)
             (r_mask _ _ _ _ _ _ _ R _ Em) ltac:(lia)). cbn [bind].
  destruct (r_cells _ _ _ _ _ _ _ R i L) as (Hn & Hs).
  unfold at_index in Ea. rewrite Ea in Hn. injection Hn as Hx.
  unfold borrowed in *. rewrite Em in *.
  destruct (bit words (offset hd + i)); subst x; [reflexivity|].
  specialize (Hs eq_refl). now destruct (cs (offset hd + i)).
Qed.

(** ** Checks of the whole array *)

Lemma mask_check_all h hd l mp expected e :
  hwf h -> repr h hd l -> mask_ptr hd = Some mp -> 0 < asize hd ->
  if forallb (fun x => Bool.eqb (is_hole x) expected) l
  then exists h',
    check_all_mask_eq B h mp (offset hd) (const_int B (asize hd)) expected e =
    Ok h' /\ in_place h hd h' hd l
  else check_all_mask_eq B h mp (offset hd) (const_int B (asize hd)) expected e =
    Panic e.
Proof.
  intros Hw R Em Hp. rewrite (size_const _ _ _ R). pose proof R as R0.
  destruct R as (len & cs & mlen & words & R).
  pose proof (r_mlen _ _ _ _ _ _ _ R ltac:(congruence)) as Hm.
  pose proof (r_lt _ _ _ _ _ _ _ R) as Hl.
  pose proof (check_all_spec B HB h mp mlen words (offset hd) (asize hd)
                expected e (r_mask _ _ _ _ _ _ _ R _ Em)
                (r_fit _ _ _ _ _ _ _ R) Hp Hm ltac:(lia)) as C.
  assert (forallb (fun k => Bool.eqb (bit words (offset hd + N.of_nat k)) expected)
            (seq 0 (N.to_nat (asize hd))) =
          forallb (fun x => Bool.eqb (is_hole x) expected) l) as E.
  { assert (l = map (fun k => nth k l None) (seq 0 (length l))) as El.
    { clear. induction l as [|x l IH]; [reflexivity|]. cbn. f_equal.
      rewrite <- seq_shift, map_map. exact IH. }
    rewrite <- (r_size _ _ _ _ _ _ _ R), Nat2N.id.
    transitivity (forallb (fun x => Bool.eqb (is_hole x) expected)
                    (map (fun k => nth k l None) (seq 0 (length l))));
      [|now rewrite <- El].
    assert (forall ks, (forall k, In k ks -> (k < length l)%nat) ->
      forallb (fun k => Bool.eqb (bit words (offset hd + N.of_nat k)) expected) ks =
      forallb (fun x => Bool.eqb (is_hole x) expected)
        (map (fun k => nth k l None) ks)) as G.
    { induction ks as [|k ks IH]; intro H; [reflexivity|].
      cbn [forallb map]. rewrite IH by (intros; apply H; now right). f_equal.
      f_equal. assert (N.of_nat k < asize hd) as Lk.
      { rewrite <- (r_size _ _ _ _ _ _ _ R). specialize (H k (or_introl eq_refl)). lia. }
      destruct (r_cells _ _ _ _ _ _ _ R _ Lk) as (Hn & Hs).
      rewrite Nat2N.id in Hn. rewrite (nth_error_nth _ _ None Hn).
      unfold borrowed in *. rewrite Em in *.
      destruct (bit words (offset hd + N.of_nat k)); [reflexivity|].
      specialize (Hs eq_refl). now destruct (cs (offset hd + N.of_nat k)). }
    apply G. intros k Hk. apply in_seq in Hk. lia. }
  rewrite E in C. destruct (forallb _ l); [|exact C].
  destruct C as (h' & words' & Ec & U & F & Hb). exists h'. split; [exact Ec|].
  apply (in_place_updated h hd l mp (Some (Mask mlen words'))); auto.
  { now apply mask_in_ptrs. }
  exists len, cs, mlen, words'. destruct U as (N1 & C1 & F1).
  constructor; try (destruct R; assumption).
  - rewrite F1; [exact (r_elems _ _ _ _ _ _ _ R)|].
    exact (ptrs_differ _ _ _ _ _ _ _ _ R Em).
  - intros mp' E'. rewrite Em in E'. injection E' as <-. exact C1.
  - intros i Hi. destruct (r_cells _ _ _ _ _ _ _ R i Hi) as (Hn & Hs).
    unfold borrowed in *. rewrite Em in *. rewrite Hb by lia. auto.
Qed.

Lemma plain_full h hd l : repr h hd l -> mask_ptr hd = None ->
  exists vs, full l = Some vs.
Proof.
  intros (len & cs & mlen & words & R) Em.
  destruct (full l) as [vs|] eqn:E; [eauto|]. apply full_none in E.
  apply In_nth_error in E. destruct E as (k & Hk).
  assert (N.of_nat k < asize hd) as L.
  { rewrite <- (r_size _ _ _ _ _ _ _ R).
    assert (nth_error l k <> None) as H by congruence. apply nth_error_Some in H. lia. }
  destruct (r_cells _ _ _ _ _ _ _ R _ L) as (Hn & Hs). rewrite Nat2N.id in Hn.
  unfold borrowed in *. rewrite Em in *. specialize (Hs eq_refl). congruence.
Qed.

Lemma no_holes_full l :
  forallb (fun x => Bool.eqb (is_hole x) false) l =
  match full l with Some _ => true | None => false end.
Proof.
  induction l as [|[v|] l IH]; [reflexivity| |reflexivity].
  cbn [forallb full is_hole Bool.eqb andb]. rewrite IH. now destruct (full l).
Qed.

Lemma all_holes l :
  forallb (fun x => Bool.eqb (is_hole x) true) l = forallb is_hole l.
Proof.
  induction l as [|[v|] l IH]; [reflexivity|reflexivity|exact IH].
Qed.

Lemma check_all_present_spec h hd l : hwf h -> repr h hd l ->
  match full l with
  | Some _ => exists h', check_all_present B h hd = Ok h' /\ in_place h hd h' hd l
  | None => check_all_present B h hd = Panic SomeBorrowed
  end.
Proof.
  intros Hw R. unfold check_all_present.
  destruct (mask_ptr hd) as [mp|] eqn:Em.
  - unfold build_none_borrowed_check. destruct (N.eqb_spec (asize hd) 0) as [Z|Z].
    + rewrite (size_length _ _ _ R) in Z. destruct l; [|cbn in Z; lia].
      cbn [full]. exists h. split; [reflexivity|]. now apply in_place_refl.
    + pose proof (mask_check_all h hd l mp false SomeBorrowed Hw R Em ltac:(lia)) as C.
      rewrite no_holes_full in C. now destruct (full l).
  - destruct (plain_full _ _ _ R Em) as (vs & ->). exists h.
    split; [reflexivity|]. now apply in_place_refl.
Qed.

Lemma check_all_borrowed_spec h hd l mp : hwf h -> repr h hd l ->
  mask_ptr hd = Some mp ->
  if forallb is_hole l
  then exists h', build_all_borrowed_check B h mp (offset hd) (asize hd) = Ok h' /\
    in_place h hd h' hd l
  else build_all_borrowed_check B h mp (offset hd) (asize hd) = Panic NotAllBorrowed.
Proof.
  intros Hw R Em. unfold build_all_borrowed_check.
  destruct (N.eqb_spec (asize hd) 0) as [Z|Z].
  - rewrite (size_length _ _ _ R) in Z. destruct l; [|cbn in Z; lia].
    cbn [forallb]. exists h. split; [reflexivity|]. now apply in_place_refl.
  - pose proof (mask_check_all h hd l mp true NotAllBorrowed Hw R Em ltac:(lia)) as C.
    now rewrite all_holes in C.
Qed.

(** ** Freeing *)

Lemma free_spec h p : cell h p <> None ->
  exists h', free h p = Ok h' /\ updated h p None h'.
Proof.
  intro H. unfold free. destruct (cell h p); [|congruence].
  eexists. split; [reflexivity|]. apply updated_set.
Qed.

(** Freeing both blocks of an array. *)
Lemma free_both h hd l : hwf h -> repr h hd l ->
  exists h1 h2, free h (elems_ptr hd) = Ok h1 /\ free_mask h1 hd = Ok h2 /\
    trans h (ptrs hd) h2 /\ next h2 = next h /\
    (forall p, In p (ptrs hd) -> cell h2 p = None) /\
    (forall p, ~ In p (ptrs hd) -> cell h2 p = cell h p).
Proof.
  intros Hw R. pose proof (repr_live _ _ _ _ R (or_introl eq_refl)) as Le.
  destruct (free_spec h (elems_ptr hd) Le) as (h1 & E1 & U1).
  pose proof R as R0. destruct R as (len & cs & mlen & words & R).
  unfold free_mask. destruct (mask_ptr hd) as [mp|] eqn:Em.
  - pose proof (ptrs_differ _ _ _ _ _ _ _ _ R Em) as Hd.
    destruct U1 as (N1 & C1 & F1).
    destruct (free_spec h1 mp) as (h2 & E2 & (N2 & C2 & F2)).
    { rewrite F1 by auto. rewrite (r_mask _ _ _ _ _ _ _ R _ Em). discriminate. }
    exists h1, h2. split; [exact E1|]. split; [exact E2|].
    assert (Ho : forall p, ~ In p (ptrs hd) -> cell h2 p = cell h p).
    { intros p Hp. unfold ptrs in Hp. rewrite Em in Hp. cbn in Hp.
      rewrite F2, F1 by auto. reflexivity. }
    assert (Hg : forall p, In p (ptrs hd) -> cell h2 p = None).
    { intros p Hp. unfold ptrs in Hp. rewrite Em in Hp.
      destruct Hp as [<-|[<-|[]]]; [|exact C2]. rewrite F2 by auto. exact C1. }
    split; [|split; [congruence|split; assumption]].
    constructor; [lia|auto|]. intros p Hp.
    destruct (in_dec Nat.eq_dec p (ptrs hd)) as [I|I]; [now apply Hg|].
    rewrite Ho by exact I. apply Hw. lia.
  - exists h1, h1. split; [exact E1|]. split; [reflexivity|].
    destruct U1 as (N1 & C1 & F1).
    assert (Ho : forall p, ~ In p (ptrs hd) -> cell h1 p = cell h p).
    { intros p Hp. unfold ptrs in Hp. rewrite Em in Hp. cbn in Hp.
      apply F1. auto. }
    assert (Hg : forall p, In p (ptrs hd) -> cell h1 p = None).
    { intros p Hp. unfold ptrs in Hp. rewrite Em in Hp.
      destruct Hp as [<-|[]]. exact C1. }
    split; [|split; [congruence|split; assumption]].
    constructor; [lia|auto|]. intros p Hp.
    destruct (in_dec Nat.eq_dec p (ptrs hd)) as [I|I]; [now apply Hg|].
    rewrite Ho by exact I. apply Hw. lia.
Qed.

(** ** Allocating *)

Record fresh h kd (esz n : N) (b : bool) h' hd : Prop := {
  f_trans : trans h [] h';
  f_kind : kind_of hd = kd;
  f_offset : offset hd = 0;
  f_size : asize hd = n;
  f_esize : esize hd = esz;
  f_elems : cell h' (elems_ptr hd) = Some (Elems n (fun _ => None));
  f_mask : forall mp, mask_ptr hd = Some mp -> exists mlen words,
    cell h' mp = Some (Mask mlen words) /\ n <= W * mlen /\
    words_fit B mlen words /\ forall i, bit words i = b;
  f_new : forall p, In p (ptrs hd) -> (next h <= p)%nat;
  f_clean : cleaned h [] h' (ptrs hd)
}.

Lemma cells_in_mul n esz : cells_in (n * esz) esz n = n.
Proof.
  unfold cells_in. destruct (N.eqb_spec esz 0); [reflexivity|].
  now apply N.div_mul.
Qed.

Lemma div_ceil_mul n : n <= W * div_ceil n W.
Proof.
  unfold div_ceil. pose proof (W_nz B HB) as Hz.
  pose proof (N.div_mod (n + W - 1) W Hz) as H.
  pose proof (N.mod_upper_bound (n + W - 1) W Hz). lia.
Qed.

Lemma div_ceil_bytes n : n + W < 2 ^ W -> div_ceil n W * B < 2 ^ W.
Proof.
  intro H. unfold div_ceil. pose proof (W_nz B HB) as Hz.
  pose proof (N.mul_div_le (n + W - 1) W Hz) as L.
  apply N.le_lt_trans with (W * ((n + W - 1) / W)); [|lia].
  rewrite N.mul_comm. apply N.mul_le_mono_r. unfold BorrowModel.W. lia.
Qed.

Lemma alloc_mask_spec h num (b : bool) : num * B < 2 ^ W ->
  alloc_mask B h num b = alloc h (Mask num (fun _ => word_of_bytes B (if b then 255 else 0))).
Proof.
  intro H. unfold alloc_mask. rewrite (wrap_small B _ H). now rewrite cells_in_mul.
Qed.

Lemma filled_words mlen (b : bool) :
  words_fit B mlen (fun _ => word_of_bytes B (if b then 255 else 0)) /\
  forall i, bit (fun _ => word_of_bytes B (if b then 255 else 0)) i = b.
Proof.
  split.
  - intros j _. rewrite (word_of_bytes_spec B HB). apply (const_word_lt B HB).
  - intro i. unfold BorrowBits.bit. rewrite (word_of_bytes_spec B HB).
    apply (const_word_bit B HB). now apply mod_lt.
Qed.

Lemma build_alloc_spec h kd esz n b : hwf h -> fits_size B n esz ->
  let (h', hd) := build_alloc B h kd esz n b in fresh h kd esz n b h' hd.
Proof.
  intros Hw (Hn & Hb). change (8 * B) with W in *. unfold build_alloc, const_int.
  rewrite (wrap_small B n) by lia. unfold alloc_elems.
  rewrite (wrap_small B _ Hb), cells_in_mul.
  destruct kd.
  - assert (div_ceil n W < 2 ^ W) as Hd.
    { unfold div_ceil. apply N.le_lt_trans with (n + W - 1); [|lia].
      apply N.div_le_upper_bound; [apply (W_nz B HB)|].
      pose proof (W_pos B HB). nia. }
    rewrite (wrap_small B _ Hd). cbn [alloc].
    rewrite alloc_mask_spec by now apply div_ceil_bytes. cbn [alloc next cell].
    constructor; cbn; auto.
    + constructor; cbn; [lia| |].
      * intros p Hp _. destruct (Nat.eqb_spec p (S (next h))); [lia|].
        destruct (Nat.eqb_spec p (next h)); [lia|reflexivity].
      * intros p Hp. cbn in *. destruct (Nat.eqb_spec p (S (next h))); [lia|].
        destruct (Nat.eqb_spec p (next h)); [lia|]. apply Hw. lia.
    + destruct (Nat.eqb_spec (next h) (S (next h))); [lia|].
      now rewrite Nat.eqb_refl.
    + intros mp [= <-]. rewrite Nat.eqb_refl.
      eexists _, _. split; [reflexivity|]. split; [apply div_ceil_mul|].
      apply filled_words.
    + intros p [<-|[<-|[]]]; lia.
    + intros p [[]|Hp] Hl. cbn in Hl.
      destruct (Nat.eqb_spec p (S (next h))); [subst; right; now left|].
      destruct (Nat.eqb_spec p (next h)); [subst; now left|].
      rewrite Hw in Hl by lia. congruence.
  - cbn [alloc next cell]. constructor; cbn; auto.
    + constructor; cbn; [lia| |].
      * intros p Hp _. destruct (Nat.eqb_spec p (next h)); [lia|reflexivity].
      * intros p Hp. cbn in *.
        destruct (Nat.eqb_spec p (next h)); [lia|]. apply Hw. lia.
    + now rewrite Nat.eqb_refl.
    + discriminate.
    + intros p [<-|[]]; lia.
    + intros p [[]|Hp] Hl. cbn in Hl.
      destruct (Nat.eqb_spec p (next h)); [subst; now left|].
      rewrite Hw in Hl by lia. congruence.
Qed.

(** A new array. *)
Record is_new h h' hd l : Prop := {
  n_trans : trans h [] h';
  n_repr : repr h' hd l;
  n_ptrs : forall p, In p (ptrs hd) -> (next h <= p)%nat;
  n_clean : cleaned h [] h' (ptrs hd)
}.

(** Elements written to a new array. *)
Lemma fresh_filled h kd esz n h1 hd cs h2 vs :
  hwf h -> fits_size B n esz -> fresh h kd esz n false h1 hd ->
  updated h1 (elems_ptr hd) (Some (Elems n cs)) h2 ->
  N.of_nat (length vs) = n ->
  (forall i, i < n -> cs i = nth_error vs (N.to_nat i)) ->
  is_new h h2 hd (map Some vs).
Proof.
  intros Hw (Hf1 & Hf2) F (N1 & C1 & F1) Hlen Hcs. change (8 * B) with W in *.
  destruct F as [[T1 T2 T3] F2 F3 F4 F5 F6 F7 F8 F9].
  assert (Le : (elems_ptr hd < next h1)%nat).
  { apply live_lt; [exact T3|]. rewrite F6. discriminate. }
  pose proof (F8 _ (or_introl eq_refl)) as Ge.
  constructor.
  - constructor; [lia| |].
    + intros p Hp _. rewrite F1 by lia. apply T2; [exact Hp|intros []].
    + intros p Hp. rewrite F1 by lia. apply T3. lia.
  - assert (forall i, i < n -> nth_error (map Some vs) (N.to_nat i) = Some (cs i) /\
              cs i <> None) as Hc.
    { intros i Hi. rewrite nth_error_map.
      destruct (nth_error_N vs i ltac:(lia)) as (v & Hv).
      rewrite Hcs by exact Hi. rewrite Hv. cbn. split; [reflexivity|discriminate]. }
    assert (W_ge : B <= W) by (unfold BorrowModel.W; lia).
    destruct (mask_ptr hd) as [mp|] eqn:Em.
    + destruct (F7 _ eq_refl) as (mlen & words & Hm & Hml & Hfit & Hbit).
      exists n, cs, mlen, words. constructor; rewrite ?F3, ?F4, ?F5; auto; try lia.
      * intros mp' E. rewrite Em in E. injection E as <-. rewrite F1; [exact Hm|].
        intros ->. congruence.
      * now rewrite map_length.
      * intros i Hi. unfold borrowed. rewrite Em, ?F3, N.add_0_l, Hbit.
        destruct (Hc i Hi). auto.
    + exists n, cs, 0, (fun _ => 0).
      constructor; rewrite ?F3, ?F4, ?F5; auto; try lia; try congruence.
      * intros j Hj. lia.
      * now rewrite map_length.
      * intros i Hi. unfold borrowed. rewrite Em, ?F3, N.add_0_l.
        destruct (Hc i Hi). auto.
  - exact F8.
  - intros p [[]|Hp] Hl. destruct (Nat.eq_dec p (elems_ptr hd)) as [->|Hne];
      [now left|]. apply F9; [now right|]. now rewrite <- F1.
Qed.

Lemma store_inputs_spec n p : n < 2 ^ W -> forall vs h i cs,
  cell h p = Some (Elems n cs) -> i + N.of_nat (length vs) <= n ->
  exists h' cs', store_inputs B h p i vs = Ok h' /\
    updated h p (Some (Elems n cs')) h' /\
    (forall j, i <= j < i + N.of_nat (length vs) ->
       cs' j = nth_error vs (N.to_nat (j - i))) /\
    (forall j, j < i -> cs' j = cs j).
Proof.
  intro Hn. induction vs as [|v vs IH]; intros h i cs Hc Hl; cbn [length] in Hl.
  - exists h, cs. split; [reflexivity|]. split; [now apply updated_same|].
    split; [cbn; lia|auto].
  - cbn [store_inputs]. unfold const_int. rewrite (wrap_small B i) by lia.
    destruct (store_spec h p n cs i v Hc ltac:(lia)) as (h1 & -> & U1). cbn [bind].
    destruct (IH h1 (i + 1) _ (proj1 (proj2 U1)) ltac:(lia))
      as (h2 & cs2 & -> & U2 & H1 & H2).
    exists h2, cs2. split; [reflexivity|].
    split; [eapply updated_trans; eassumption|]. split.
    + intros j Hj. cbn [length] in Hj. destruct (N.eq_dec j i) as [->|Hne].
      * rewrite H2 by lia. rewrite N.eqb_refl, N.sub_diag. reflexivity.
      * rewrite H1 by lia.
        replace (N.to_nat (j - i)) with (S (N.to_nat (j - (i + 1)))) by lia.
        reflexivity.
    + intros j Hj. rewrite H2 by lia. destruct (N.eqb_spec j i); [lia|reflexivity].
Qed.

Lemma store_constants_inputs p : forall vs h i,
  i + N.of_nat (length vs) <= 2 ^ 31 -> i + N.of_nat (length vs) < 2 ^ W ->
  store_constants h p i vs = store_inputs B h p i vs.
Proof.
  induction vs as [|v vs IH]; intros h i Hl Hw; [reflexivity|].
  cbn [store_constants store_inputs length] in *.
  assert (const_i32 i = Some i) as ->.
  { unfold const_i32. rewrite N.mod_small by (change (2 ^ 32) with (2 * 2 ^ 31); lia).
    assert (i <? 2 ^ 31 = true) as -> by (apply N.ltb_lt; lia). reflexivity. }
  cbn [use bind]. unfold const_int. rewrite (wrap_small B i) by lia.
  destruct (store_elem h p i v); cbn [bind]; try reflexivity. apply IH; lia.
Qed.

Lemma new_array_spec h kd esz vs : hwf h ->
  fits_size B (N.of_nat (length vs)) esz ->
  exists h' hd, emit_new_array B h kd esz vs = Ok (h', hd) /\
    kind_of hd = kd /\ is_new h h' hd (map Some vs).
Proof.
  intros Hw Hf. unfold emit_new_array.
  pose proof (build_alloc_spec h kd esz _ false Hw Hf) as F.
  destruct (build_alloc B h kd esz _ false) as [h1 hd].
  pose proof Hf as (Hf1 & _). change (8 * B) with W in Hf1.
  destruct (store_inputs_spec (N.of_nat (length vs)) (elems_ptr hd) ltac:(lia)
              vs h1 0 _ (f_elems _ _ _ _ _ _ _ F) ltac:(lia))
    as (h2 & cs & -> & U & H1 & _).
  cbn [bind]. exists h2, hd. split; [reflexivity|].
  split; [exact (f_kind _ _ _ _ _ _ _ F)|].
  eapply fresh_filled; try eassumption; [reflexivity|].
  intros i Hi. rewrite H1 by lia. now rewrite N.sub_0_r.
Qed.

Lemma value_spec h kd esz vs : hwf h ->
  fits_size B (N.of_nat (length vs)) esz -> N.of_nat (length vs) <= 2 ^ 31 ->
  exists h' hd, emit_value B h kd esz vs = Ok (h', hd) /\
    kind_of hd = kd /\ is_new h h' hd (map Some vs).
Proof.
  intros Hw Hf Hl. destruct (new_array_spec h kd esz vs Hw Hf) as (h' & hd & E & R).
  exists h', hd. split; [|exact R]. rewrite <- E.
  unfold emit_value, emit_new_array.
  destruct (build_alloc B h kd esz _ false) as [h1 hd1].
  destruct Hf as (Hf1 & _). change (8 * B) with W in Hf1.
  now rewrite store_constants_inputs by lia.
Qed.

Lemma new_all_borrowed_spec h esz n : hwf h -> fits_size B n esz ->
  let (h', hd) := emit_new_all_borrowed B h esz n in
  kind_of hd = Borrowable /\ is_new h h' hd (repeat None (N.to_nat n)).
Proof.
  intros Hw Hf. unfold emit_new_all_borrowed.
  pose proof (build_alloc_spec h Borrowable esz n true Hw Hf) as F.
  destruct (build_alloc B h Borrowable esz n true) as [h1 hd].
  split; [exact (f_kind _ _ _ _ _ _ _ F)|].
  destruct Hf as (Hf1 & Hf2). change (8 * B) with W in *.
  destruct F as [[T1 T2 T3] F2 F3 F4 F5 F6 F7 F8 F9].
  constructor; auto; [constructor; auto|].
  unfold kind_of in F2. destruct (mask_ptr hd) as [mp|] eqn:Em; [|discriminate].
  destruct (F7 _ eq_refl) as (mlen & words & Hm & Hml & Hfit & Hbit).
  assert (W_ge : B <= W) by (unfold BorrowModel.W; lia).
  exists n, (fun _ => None), mlen, words.
  constructor; rewrite ?F3, ?F4, ?F5; auto; try lia.
  - intros mp' E. rewrite Em in E. now injection E as <-.
  - rewrite repeat_length. lia.
  - intros i Hi. unfold borrowed. rewrite Em, ?F3, N.add_0_l, Hbit.
    split; [|discriminate]. apply nth_error_repeat. lia.
Qed.

(** ** Repeating *)

Lemma repeat_loop n p (gen : N -> V) : n < 2 ^ W -> forall k h i cs,
  cell h p = Some (Elems n cs) -> i + N.of_nat k = n ->
  exists h' cs',
    loop_from B k n i (fun idx h => store_elem h p idx (gen idx)) h = Ok h' /\
    updated h p (Some (Elems n cs')) h' /\
    (forall j, i <= j < n -> cs' j = Some (gen j)) /\
    (forall j, j < i -> cs' j = cs j).
Proof.
  intro Hn. induction k as [|k IH]; intros h i cs Hc Hl.
  - exists h, cs. rewrite loop_end by lia. split; [reflexivity|].
    split; [now apply updated_same|]. split; [lia|auto].
  - rewrite (loop_step B) by lia.
    destruct (store_spec h p n cs i (gen i) Hc ltac:(lia)) as (h1 & -> & U1).
    cbn [bind].
    destruct (IH h1 (i + 1) _ (proj1 (proj2 U1)) ltac:(lia))
      as (h2 & cs2 & E & U2 & H1 & H2).
    rewrite E. exists h2, cs2. split; [reflexivity|].
    split; [eapply updated_trans; eassumption|]. split.
    + intros j Hj. destruct (N.eq_dec j i) as [->|Hne]; [|apply H1; lia].
      rewrite H2 by lia. now rewrite N.eqb_refl.
    + intros j Hj. rewrite H2 by lia. destruct (N.eqb_spec j i); [lia|reflexivity].
Qed.

Lemma calls_nth (gen : N -> V) n i : i < n ->
  nth_error (calls gen n) (N.to_nat i) = Some (gen i).
Proof.
  intro H. unfold calls. rewrite nth_error_map.
  assert (nth_error (seq 0 (N.to_nat n)) (N.to_nat i) = Some (N.to_nat i)) as ->.
  { rewrite (nth_error_nth' _ O) by (rewrite seq_length; lia).
    rewrite seq_nth by lia. reflexivity. }
  cbn. now rewrite N2Nat.id.
Qed.

Lemma repeat_spec h kd esz n gen : hwf h -> fits_size B n esz ->
  exists h' hd, emit_repeat B h kd esz n gen = Ok (h', hd) /\
    kind_of hd = kd /\ is_new h h' hd (map Some (calls gen n)).
Proof.
  intros Hw Hf. unfold emit_repeat.
  pose proof (build_alloc_spec h kd esz n false Hw Hf) as F.
  destruct (build_alloc B h kd esz n false) as [h1 hd].
  pose proof Hf as (Hf1 & _). change (8 * B) with W in Hf1.
  unfold const_int. rewrite (wrap_small B n) by lia. unfold build_loop.
  destruct (repeat_loop n (elems_ptr hd) gen ltac:(lia) (N.to_nat n) h1 0 _
              (f_elems _ _ _ _ _ _ _ F) ltac:(lia)) as (h2 & cs & -> & U & H1 & _).
  cbn [bind]. exists h2, hd. split; [reflexivity|].
  split; [exact (f_kind _ _ _ _ _ _ _ F)|].
  eapply fresh_filled; try eassumption.
  - unfold calls. rewrite map_length, seq_length. lia.
  - intros i Hi. rewrite calls_nth by exact Hi. apply H1. lia.
Qed.

(** ** Cloning *)

Lemma repr_cells_full h hd l vs : repr h hd l -> full l = Some vs ->
  exists len cs, cell h (elems_ptr hd) = Some (Elems len cs) /\
    offset hd + asize hd <= len /\
    forall i, i < asize hd -> cs (offset hd + i) = nth_error vs (N.to_nat i).
Proof.
  intros (len & cs & mlen & words & R) Hf. exists len, cs.
  split; [exact (r_elems _ _ _ _ _ _ _ R)|].
  split; [exact (r_len _ _ _ _ _ _ _ R)|].
  intros i Hi. destruct (r_cells _ _ _ _ _ _ _ R i Hi) as (Hn & Hs).
  apply full_map in Hf. subst l. rewrite nth_error_map in Hn.
  destruct (nth_error vs (N.to_nat i)) as [v|]; [|discriminate].
  cbn in Hn. injection Hn as Hn.
  destruct (borrowed hd words i); [discriminate|]. congruence.
Qed.

Lemma clone_spec h hd l : hwf h -> repr h hd l ->
  match full l with
  | Some _ => exists h1 h' hd', emit_clone B h hd (kind_of hd) = Ok (h', hd') /\
      kind_of hd' = kind_of hd /\
      in_place h hd h1 hd l /\ is_new h1 h' hd' l
  | None => emit_clone B h hd (kind_of hd) = Panic SomeBorrowed
  end.
Proof.
  intros Hw R. unfold emit_clone.
  pose proof (check_all_present_spec h hd l Hw R) as C.
  destruct (full l) as [vs|] eqn:Ef; [|now rewrite C].
  destruct C as (h1 & -> & I1). cbn [bind].
  pose proof (hwf_in_place _ _ _ _ _ I1) as Hw1.
  pose proof (ip_repr _ _ _ _ _ I1) as R1.
  pose proof (size_length _ _ _ R1) as Hs.
  assert (fits_size B (asize hd) (esize hd)) as Hfit.
  { destruct R1 as (len & cs & mlen & words & R1).
    pose proof (r_lt _ _ _ _ _ _ _ R1). change (8 * B) with W.
    split; [change (8 * B) with W; lia|exact (r_bytes _ _ _ _ _ _ _ R1)]. }
  pose proof (build_alloc_spec h1 (kind_of hd) (esize hd) (asize hd) false Hw1 Hfit) as F.
  destruct (build_alloc B h1 (kind_of hd) (esize hd) (asize hd) false) as [h2 hd'].
  rewrite (size_const _ _ _ R1).
  destruct (repr_cells_full _ _ _ _ R1 Ef) as (len & cs & Hc & Hl & Hcs).
  assert (wrap (asize hd * esize hd) = asize hd * esize hd) as ->
    by (apply wrap_small, Hfit).
  unfold memcpy. rewrite cells_in_mul.
  assert (cell h2 (elems_ptr hd) = Some (Elems len cs)) as ->.
  { rewrite (t_same _ _ _ (f_trans _ _ _ _ _ _ _ F)); [exact Hc| |intros []].
    apply live_lt; [exact Hw1|]. rewrite Hc. discriminate. }
  rewrite (f_elems _ _ _ _ _ _ _ F).
  assert (offset hd + asize hd <=? len = true) as -> by now apply N.leb_le.
  rewrite N.leb_refl. cbn [andb bind].
  eexists h1, _, hd'. split; [reflexivity|].
  split; [exact (f_kind _ _ _ _ _ _ _ F)|]. split; [exact I1|].
  apply full_map in Ef. rewrite Ef.
  eapply fresh_filled; try eassumption.
  - apply updated_set.
  - rewrite Hs, Ef, map_length. reflexivity.
  - intros i Hi. cbn beta. apply N.ltb_lt in Hi as Hi'. rewrite Hi'. now apply Hcs.
Qed.

(** ** Scanning *)

Definition scan_body hd tgt (f : N -> V -> list V -> V * list V)
    : N -> heap * list V -> res (heap * list V) :=
  fun idx '(h, accs) =>
    let src_idx := wrap (idx + offset hd) in
    do v <- load_elem h (elems_ptr hd) src_idx;
    let '(v', accs') := f idx v accs in
    if Nat.eqb (length accs') (length accs) then
      do h <- store_elem h tgt idx v';
      Ok (h, accs')
    else Stuck.

Lemma scan_loop hd tgt (f : N -> V -> list V -> V * list V) n len
    (src : N -> option V) accn : n < 2 ^ W -> offset hd + n < 2 ^ W ->
  offset hd + n <= len -> tgt <> elems_ptr hd ->
  (forall i v a, length a = accn -> length (snd (f i v a)) = accn) ->
  forall vs h i (cs : N -> option V) accs,
  cell h (elems_ptr hd) = Some (Elems len src) ->
  cell h tgt = Some (Elems n cs) -> i + N.of_nat (length vs) = n ->
  length accs = accn ->
  (forall j, j < N.of_nat (length vs) ->
     src (offset hd + (i + j)) = nth_error vs (N.to_nat j)) ->
  exists h' cs',
    loop_from B (length vs) n i (scan_body hd tgt f) (h, accs) =
      Ok (h', snd (scan_list f i vs accs)) /\
    updated h tgt (Some (Elems n cs')) h' /\
    (forall j, i <= j < n ->
       cs' j = nth_error (fst (scan_list f i vs accs)) (N.to_nat (j - i))) /\
    (forall j, j < i -> cs' j = cs j).
Proof.
  intros Hn Ho Hlen Hne Hf.
  induction vs as [|v vs IH]; intros h i cs accs Hs Hc Hl Ha Hsrc; cbn [length] in *.
  - exists h, cs. rewrite loop_end by lia. split; [reflexivity|].
    split; [now apply updated_same|]. split; [lia|auto].
  - rewrite (loop_step B) by lia.
    assert (load_elem h (elems_ptr hd) (wrap (i + offset hd)) = Ok v) as El.
    { rewrite wrap_small by lia. unfold load_elem. rewrite Hs.
      assert (i + offset hd <? len = true) as -> by (apply N.ltb_lt; lia).
      specialize (Hsrc 0 ltac:(lia)). rewrite N.add_0_r in Hsrc.
      rewrite (N.add_comm i), Hsrc. reflexivity. }
    unfold scan_body at 1. cbv zeta. rewrite El. cbn [bind scan_list].
    pose proof (Hf i v accs Ha) as Hacc.
    destruct (f i v accs) as [v' accs1]. cbn [snd] in Hacc.
    rewrite Ha, Hacc, Nat.eqb_refl.
    destruct (store_spec h tgt n cs i v' Hc ltac:(lia)) as (h1 & -> & U1).
    cbn [bind]. destruct U1 as (N1 & C1 & F1).
    destruct (IH h1 (i + 1) _ accs1 ltac:(rewrite F1 by auto; exact Hs) C1
                ltac:(lia) Hacc) as (h2 & cs2 & E & U2 & H1 & H2).
    { intros j Hj. specialize (Hsrc (j + 1) ltac:(lia)).
      replace (i + 1 + j) with (i + (j + 1)) by lia. rewrite Hsrc.
      replace (N.to_nat (j + 1)) with (S (N.to_nat j)) by lia. reflexivity. }
    rewrite E. destruct (scan_list f (i + 1) vs accs1) as [r accs2] eqn:Er.
    cbn [fst snd] in *.
    exists h2, cs2. split; [reflexivity|].
    split; [eapply updated_trans; [|eassumption]; repeat split; eassumption|]. split.
    + intros j Hj. destruct (N.eq_dec j i) as [->|Hnj].
      * rewrite H2 by lia. rewrite N.eqb_refl, N.sub_diag. reflexivity.
      * rewrite H1 by lia.
        replace (N.to_nat (j - i)) with (S (N.to_nat (j - (i + 1)))) by lia.
        reflexivity.
    + intros j Hj. rewrite H2 by lia. destruct (N.eqb_spec j i); [lia|reflexivity].
Qed.

Lemma scan_list_length f vs : forall i accs,
  length (fst (scan_list (V := V) f i vs accs)) = length vs.
Proof.
  induction vs as [|v vs IH]; intros i accs; [reflexivity|].
  cbn [scan_list length]. destruct (f i v accs) as [v' a1].
  specialize (IH (i + 1) a1). destruct (scan_list f (i + 1) vs a1) as [r a2].
  cbn [fst length] in *. now rewrite IH.
Qed.

Lemma scan_spec h hd l esz (f : N -> V -> list V -> V * list V) accs : hwf h -> repr h hd l ->
  N.of_nat (length l) * esz < 2 ^ W ->
  (forall i v a, length a = length accs -> length (snd (f i v a)) = length accs) ->
  match full l with
  | Some vs => exists h' hd',
      emit_scan B h hd (kind_of hd) esz f accs =
        Ok (h', hd', snd (scan_list f 0 vs accs)) /\
      kind_of hd' = kind_of hd /\
      in_place h hd h' hd' (map Some (fst (scan_list f 0 vs accs)))
  | None => emit_scan B h hd (kind_of hd) esz f accs = Panic SomeBorrowed
  end.
Proof.
  intros Hw R Hbytes Hf. unfold emit_scan.
  pose proof (check_all_present_spec h hd l Hw R) as C.
  destruct (full l) as [vs|] eqn:Ef; [|now rewrite C].
  destruct C as (h1 & -> & I1). cbn [bind].
  pose proof (hwf_in_place _ _ _ _ _ I1) as Hw1.
  pose proof (ip_repr _ _ _ _ _ I1) as R1.
  pose proof (size_length _ _ _ R1) as Hs.
  assert (fits_size B (asize hd) esz) as Hfit.
  { split; [|rewrite Hs; exact Hbytes]. change (8 * B) with W.
    destruct R1 as (? & ? & ? & ? & R1). pose proof (r_lt _ _ _ _ _ _ _ R1). lia. }
  pose proof (build_alloc_spec h1 (kind_of hd) esz (asize hd) false Hw1 Hfit) as F.
  destruct (build_alloc B h1 (kind_of hd) esz (asize hd) false) as [h2 hd'].
  rewrite (size_const _ _ _ R1).
  destruct (repr_cells_full _ _ _ _ R1 Ef) as (len & cs & Hc & Hl & Hcs).
  assert (Le : (elems_ptr hd < next h1)%nat).
  { apply live_lt; [exact Hw1|]. rewrite Hc. discriminate. }
  pose proof (f_new _ _ _ _ _ _ _ F _ (or_introl eq_refl)) as Ge.
  assert (length vs = length l) as Elen.
  { apply full_map in Ef. rewrite Ef. now rewrite map_length. }
  assert (offset hd + asize hd + W < 2 ^ W) as Hlt.
  { destruct R1 as (? & ? & ? & ? & R1). exact (r_lt _ _ _ _ _ _ _ R1). }
  destruct (scan_loop hd (elems_ptr hd') f (asize hd) len cs (length accs)
              ltac:(lia) ltac:(lia) Hl ltac:(lia) Hf vs h2 0 (fun _ => None) accs)
    as (h3 & cs3 & E & U & H1 & _).
  { rewrite (t_same _ _ _ (f_trans _ _ _ _ _ _ _ F)); [exact Hc|exact Le|intros []]. }
  { exact (f_elems _ _ _ _ _ _ _ F). }
  { lia. }
  { reflexivity. }
  { intros j Hj. rewrite N.add_0_l. apply Hcs. lia. }
  unfold build_loop. replace (N.to_nat (asize hd)) with (length vs) by lia.
  change (fun (idx : N) '(h, accs) => do v <- load_elem h (elems_ptr hd) (wrap (idx + offset hd));
            (let '(v', accs') := f idx v accs in
             if (length accs' =? length accs)%nat
             then do h0 <- store_elem h (elems_ptr hd') idx v'; Ok (h0, accs') else Stuck))
    with (scan_body hd (elems_ptr hd') f).
  rewrite E. cbn [bind].
  assert (N3 : is_new h1 h3 hd' (map Some (fst (scan_list f 0 vs accs)))).
  { eapply fresh_filled; try eassumption.
    - rewrite scan_list_length. lia.
    - intros i Hi. rewrite H1 by lia. now rewrite N.sub_0_r. }
  destruct N3 as [[T1 T2 T3] R3 P3 C3].
  assert (forall p, In p (ptrs hd) -> (p < next h1)%nat) as Hold.
  { intros p Hp. apply live_lt; [exact Hw1|]. eapply repr_live; eassumption. }
  assert (repr h3 hd l) as R4.
  { apply (repr_frame h1); [|exact R1]. intros p Hp. apply T2; [now apply Hold|intros []]. }
  destruct (free_both h3 hd l T3 R4) as (h4 & h5 & -> & E5 & T5 & N5 & G5 & O5).
  cbn [bind]. rewrite E5. cbn [bind].
  exists h5, hd'. split; [reflexivity|]. split; [exact (f_kind _ _ _ _ _ _ _ F)|].
  apply (in_place_trans h hd h1 hd l); [exact Hw|exact I1|].
  assert (forall p, In p (ptrs hd') -> ~ In p (ptrs hd)) as Hdis.
  { intros p H H'. apply P3 in H. apply Hold in H'. lia. }
  constructor.
  - constructor; [destruct T5; lia| |exact (t_wf _ _ _ T5)].
    intros p Hp Hni. rewrite O5 by exact Hni. apply T2; [exact Hp|intros []].
  - apply (repr_frame h3); [|exact R3]. intros p Hp. apply O5. now apply Hdis.
  - intros p Hp. right. now apply P3.
  - intros p Hp Hlive. destruct (in_dec Nat.eq_dec p (ptrs hd)) as [I|I].
    + now rewrite G5 in Hlive.
    + rewrite O5 in Hlive by exact I. destruct Hp as [Hp|Hp]; [contradiction|].
      apply C3; [now right|exact Hlive].
Qed.

(** ** Converting *)

Lemma to_array_spec h hd l : hwf h -> repr h hd l ->
  match full l with
  | Some _ => exists h' hd', emit_to_array B h hd = Ok (h', hd') /\
      kind_of hd' = Plain /\ trans h (ptrs hd) h' /\ repr h' hd' l /\
      (forall p, In p (ptrs hd') -> In p (ptrs hd))
  | None => emit_to_array B h hd = Panic SomeBorrowed
  end.
Proof.
  intros Hw R. unfold emit_to_array.
  pose proof (check_all_present_spec h hd l Hw R) as C.
  destruct (full l) as [vs|] eqn:Ef; [|now rewrite C].
  destruct C as (h1 & -> & I1). cbn [bind]. eexists h1, _.
  split; [reflexivity|]. split; [reflexivity|].
  split; [exact (ip_trans _ _ _ _ _ I1)|]. split.
  - pose proof (ip_repr _ _ _ _ _ I1) as (len & cs & mlen & words & R1).
    exists len, cs, 0, (fun _ => 0). pose proof R1 as R2.
    destruct R1 as [A1 A2 A3 A4 A5 A6 A7 A8 A9].
    constructor; cbn [elems_ptr mask_ptr offset asize esize]; auto; try congruence.
    + intros j Hj. lia.
    + intros i Hi. destruct (A9 i Hi) as (Hn & Hs).
      apply full_map in Ef. rewrite Ef, nth_error_map in Hn |- *.
      destruct (nth_error vs (N.to_nat i)) as [v|]; [|discriminate].
      cbn in *. injection Hn as Hn. unfold borrowed. cbn.
      destruct (borrowed hd words i); [discriminate|]. rewrite <- Hn.
      split; [reflexivity|discriminate].
  - intros p [<-|[]]. now left.
Qed.

Lemma from_array_spec h hd l : hwf h -> repr h hd l -> mask_ptr hd = None ->
  let (h', hd') := emit_from_array B h hd in
  kind_of hd' = Borrowable /\ in_place h hd h' hd' l.
Proof.
  intros Hw R Em. unfold emit_from_array. rewrite (size_const _ _ _ R).
  pose proof R as (len & cs & mlen & words & R1).
  pose proof (r_lt _ _ _ _ _ _ _ R1) as Hlt.
  rewrite (wrap_small B (asize hd + offset hd)) by lia.
  assert (HBz : B <> 0) by lia.
  pose proof (N.mul_div_le (asize hd + offset hd) B HBz) as Hq.
  assert ((asize hd + offset hd) / B <= asize hd + offset hd) as Hq2.
  { apply N.div_le_upper_bound; [exact HBz|]. nia. }
  set (q := (asize hd + offset hd) / B) in *.
  pose proof (W_pos B HB) as HWp.
  rewrite (wrap_small B (q + 1)) by lia.
  assert (W_ge : B <= W) by (unfold BorrowModel.W; lia).
  rewrite alloc_mask_spec
    by (rewrite N.mul_add_distr_r, N.mul_1_l, (N.mul_comm q); lia).
  cbn [alloc]. split; [reflexivity|].
  assert (Le : (elems_ptr hd < next h)%nat).
  { apply live_lt; [exact Hw|]. rewrite (r_elems _ _ _ _ _ _ _ R1). discriminate. }
  constructor.
  - constructor; cbn; [lia| |].
    + intros p Hp _. destruct (Nat.eqb_spec p (next h)); [lia|reflexivity].
    + intros p Hp. cbn in *. destruct (Nat.eqb_spec p (next h)); [lia|].
      apply Hw. lia.
  - destruct (filled_words (q + 1) false) as (Hfit & Hbit).
    exists len, cs, (q + 1), (fun _ => word_of_bytes B 0).
    destruct R1 as [A1 A2 A3 A4 A5 A6 A7 A8 A9].
    constructor; cbn [elems_ptr mask_ptr offset asize esize cell]; auto.
    + destruct (Nat.eqb_spec (elems_ptr hd) (next h)); [lia|exact A1].
    + intros mp [= <-]. now rewrite Nat.eqb_refl.
    + intros _. unfold BorrowModel.W.
      pose proof (N.div_mod (asize hd + offset hd) B HBz) as Hdm. fold q in Hdm.
      pose proof (N.mod_upper_bound (asize hd + offset hd) B HBz). nia.
    + intros i Hi. unfold borrowed. cbn [mask_ptr offset]. rewrite Hbit.
      specialize (A9 i Hi). unfold borrowed in A9. rewrite Em in A9. exact A9.
  - intros p [<-|[<-|[]]]; cbn; [left; now left|right; lia].
  - intros p Hp Hl. cbn [cell] in Hl. destruct (Nat.eqb_spec p (next h)) as [->|Hne];
      [right; now left|]. destruct Hp as [Hp|Hp].
    + unfold ptrs in Hp. rewrite Em in Hp. destruct Hp as [<-|[]]. now left.
    + rewrite Hw in Hl by lia. congruence.
Qed.

End Refine.
