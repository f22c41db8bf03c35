(** * Properties of the lowering of arrays and borrow arrays *)

From Coq Require Import List Arith Lia NArith Bool.
From Verif Require Import BorrowModel BorrowSpec BorrowBits BorrowProofs BorrowRun.
Import ListNotations.
Open Scope N_scope.

(** Runs end in the same way. *)
Definition same_end {S A} (r : res S) (r' : res A) : Prop :=
  match r, r' with
  | Ok _, Ok _ => True
  | Panic e, Panic e' => e = e'
  | Stuck, Stuck => True
  | _, _ => False
  end.

(** The lowered program gives the results that the arrays mean, in order, and
    panics exactly when it should, with the right message. *)
Theorem lowering_refines {V} (B : N) (p : @prog V) : 1 <= B -> fits B p [] ->
  fst (run B p empty_state) = fst (spec_run p []) /\
  same_end (snd (run B p empty_state)) (snd (spec_run p [])).
Proof.
  intros HB F. destruct (run_refines B HB p _ _ (sim_empty B) F) as (H1 & H2).
  split; [exact H1|].
  destruct (snd (run B p empty_state)), (snd (spec_run p [])); cbn in *; auto.
Qed.

(** No access outside of a block, to freed or uninitialised memory, no double
    free and no use of poison. *)
Theorem lowering_defined {V} (B : N) (p : @prog V) : 1 <= B -> fits B p [] ->
  snd (run B p empty_state) <> UB.
Proof.
  intros HB F E. destruct (lowering_refines B p HB F) as (_ & H).
  rewrite E in H. now destruct (snd (spec_run p [])).
Qed.

(** ** Arrays without borrowing do not panic *)

Definition plain_instr {V} (i : @instr V) : Prop :=
  match i with
  | INew kd _ _ | IConst kd _ _ | IRepeat kd _ _ _ => kd = Plain
  | INewAllBorrowed _ _ | IFromArray _ => False
  | _ => True
  end.

Fixpoint plain_prog {V} (p : @prog V) : Prop :=
  match p with
  | Halt => True
  | Do i k => plain_instr i /\ forall o, plain_prog (k o)
  end.

Definition all_plain {V} (a : @arrays V) : Prop :=
  forall w kd l, nth_error a w = Some (Some (kd, l)) ->
    kd = Plain /\ exists vs, l = map Some vs.

Lemma plain_out {V} (a : @arrays V) w x : all_plain a ->
  match x with Some (kd, l) => kd = Plain /\ exists vs, l = map Some vs
             | None => True end -> all_plain (out a w x).
Proof.
  intros A Hx w' kd l H. unfold out in H. rewrite replace_nth_error in H.
  destruct (Nat.eqb w' w); [|now apply (A w')].
  destruct (nth_error a w'); [|discriminate]. injection H as ->. exact Hx.
Qed.

Lemma plain_add {V} (a : @arrays V) kd l : all_plain a ->
  kd = Plain -> (exists vs, l = map Some vs) -> all_plain (a ++ [Some (kd, l)]).
Proof.
  intros A Hk Hl w kd' l' H. apply (snoc_error 1 (N.le_refl 1)) in H.
  destruct H as [(_ & H)|(_ & H)]; [now apply (A w)|].
  injection H as -> ->. auto.
Qed.

Lemma replace_map {V} (vs : list V) k x :
  replace_nth (map Some vs) k (Some x) = map Some (replace_nth vs k x).
Proof.
  revert k. induction vs as [|v vs IH]; intros [|k]; cbn; try reflexivity.
  now rewrite IH.
Qed.

Lemma full_all {V} (vs : list V) : full (map Some vs) = Some vs.
Proof. now apply full_map. Qed.

Lemma at_all {V} (vs : list V) i : at_index (map Some vs) i <> Some None.
Proof.
  unfold at_index. rewrite nth_error_map.
  destruct (nth_error vs (N.to_nat i)); discriminate.
Qed.

Lemma plain_step {V} (i : @instr V) (a : @arrays V) : all_plain a -> plain_instr i ->
  match spec_step i a with
  | Ok (a', _) => all_plain a'
  | Panic _ => False
  | UB => False
  | Stuck => True
  end.
Proof.
  intros A P.
  assert (W : forall w (k : kind -> cells -> res (@arrays V * (list bool * list V))),
    (forall vs, match k Plain (map Some vs) with
       | Ok (a', _) => all_plain a' | Panic _ => False | UB => False
       | Stuck => True end) ->
    match with_array a w k with
    | Ok (a', _) => all_plain a' | Panic _ => False | UB => False
    | Stuck => True end).
  { intros w k Hk. unfold with_array.
    destruct (nth_error a w) as [[[kd l]|]|] eqn:E; try exact Logic.I.
    destruct (A _ _ _ E) as (-> & vs & ->). apply Hk. }
  destruct i; cbn [spec_step plain_instr] in *; try contradiction;
    try (apply W; intro vs').
  - apply plain_add; eauto.
  - apply plain_add; eauto.
  - apply plain_add; eauto.
  - rewrite full_all. now apply plain_out.
  - pose proof (at_all vs' i). destruct (at_index _ i) as [[v|]|];
      [assumption|congruence|assumption].
  - pose proof (at_all vs' i). destruct (at_index _ i) as [[x|]|];
      [|congruence|assumption]. apply plain_out; [assumption|].
    split; [reflexivity|]. unfold replace_at. rewrite replace_map. eauto.
  - pose proof (at_all vs' i). pose proof (at_all vs' j).
    destruct (at_index _ i) as [[x|]|], (at_index _ j) as [[y|]|];
      try congruence; try assumption. apply plain_out; [assumption|].
    split; [reflexivity|]. unfold replace_at. rewrite !replace_map. eauto.
  - destruct pop_left; apply W; intro vs.
    + destruct vs as [|v vs]; cbn [map]; apply plain_out; eauto.
    + rewrite <- map_rev. destruct (rev vs) as [|v r]; cbn [map];
        apply plain_out; auto. split; [reflexivity|].
      rewrite <- map_rev. eauto.
  - destruct vs' as [|v vs]; cbn [map]; [|exact Logic.I]. now apply plain_out.
  - rewrite full_all. apply plain_add; eauto.
  - now apply plain_out.
  - rewrite full_all. destruct (scan_list f 0 vs' accs) as [r accs'].
    apply plain_out; eauto.
  - exact Logic.I.
  - exact Logic.I.
  - exact Logic.I.
  - exact Logic.I.
  - exact Logic.I.
Qed.

Theorem plain_never_panics {V} (B : N) (p : @prog V) :
  1 <= B -> fits B p [] -> plain_prog p ->
  forall e, snd (run B p empty_state) <> Panic e.
Proof.
  intros HB F P e E. destruct (lowering_refines B p HB F) as (_ & H).
  rewrite E in H. clear E F HB.
  assert (G : forall (p : @prog V) a, all_plain a -> plain_prog p ->
    forall e, snd (spec_run p a) <> Panic e).
  { clear. induction p as [|i k IH]; intros a A P e; cbn [spec_run];
      [discriminate|]. destruct P as (P & Pk).
    pose proof (plain_step i a A P) as S.
    destruct (spec_step i a) as [[a' o]|e'| |]; try contradiction; try discriminate.
    specialize (IH o a' S (Pk o) e). destruct (spec_run (k o) a'). exact IH. }
  destruct (snd (spec_run p [])) as [a|e'| |] eqn:Es; cbn in H; try contradiction.
  refine (G p [] _ P e' Es). intros w kd l Hw. destruct w; discriminate.
Qed.

(** ** Memory *)

(** If the program does not unpack arrays, convert borrow arrays, discard
    borrow arrays or pop from empty arrays then at the end every block that is
    not freed belongs to an array. *)
Theorem memory_accounted {V} (B : N) (p : @prog V) (s : @state V) :
  1 <= B -> fits B p [] -> all_free p [] ->
  snd (run B p empty_state) = Ok s -> no_leak s.
Proof.
  intros HB F A E. apply (run_no_leak B HB p _ _ s (sim_empty B) F A); [|exact E].
  intros q Hq. destruct (Hq eq_refl).
Qed.

(** The mask of a new array has a bit for every element. *)
Theorem mask_covers {V} (B : N) (h : @heap V) (esz n : N) (b : bool) :
  1 <= B -> hwf h -> fits_size B n esz ->
  exists hd mp mlen words,
    snd (build_alloc B h Borrowable esz n b) = hd /\ mask_ptr hd = Some mp /\
    cell (fst (build_alloc B h Borrowable esz n b)) mp = Some (Mask mlen words) /\
    n <= 8 * (mlen * B) /\
    forall i, i < n -> N.testbit (words (i / (8 * B))) (i mod (8 * B)) = b.
Proof.
  intros HB Hw F. pose proof (build_alloc_spec B HB h Borrowable esz n b Hw F) as A.
  destruct (build_alloc B h Borrowable esz n b) as [h' hd]. cbn [fst snd].
  destruct A as [_ K _ _ _ _ M _ _]. unfold kind_of in K.
  destruct (mask_ptr hd) as [mp|] eqn:Em; [|discriminate].
  destruct (M mp eq_refl) as (mlen & words & H1 & H2 & _ & H3).
  exists hd, mp, mlen, words. repeat split; auto.
  - unfold W in H2. lia.
  - intros i _. exact (H3 i).
Qed.

(** A program given by its operations. *)
Fixpoint prog_of {V} (l : list (@instr V)) : @prog V :=
  match l with [] => Halt | i :: r => Do i (fun _ => prog_of r) end.

Definition ends_ok {V} (r : res (@state V)) : bool :=
  match r with Ok _ => true | _ => false end.
Definition final {V} (r : res (@state V)) : @state V :=
  match r with Ok s => s | _ => empty_state end.
Lemma final_ok {V} (r : res (@state V)) : ends_ok r = true -> r = Ok (final r).
Proof. now destruct r. Qed.

(** A block that is left over when no wire carries an array. *)
Lemma leaked {V} (s : @state V) p :
  forallb (fun x => match x with None => true | Some _ => false end) (wires s) = true ->
  match cell (mem s) p with Some _ => true | None => false end = true -> ~ no_leak s.
Proof.
  intros Hw Hc L. destruct (L p) as (w & hd & E & _).
  - intro E. now rewrite E in Hc.
  - rewrite forallb_forall in Hw. apply nth_error_In in E. apply Hw in E. discriminate.
Qed.

(** All memory is freed once no wire carries an array any more. *)
Definition frees_memory (p : @prog N) : Prop :=
  forall s, snd (run 8 p empty_state) = Ok s -> no_leak s.

Lemma not_freed p n : ends_ok (snd (run 8 p empty_state)) = true ->
  forallb (fun x => match x with None => true | Some _ => false end)
    (wires (final (snd (run 8 p empty_state)))) = true ->
  match cell (mem (final (snd (run 8 p empty_state)))) n with
  | Some _ => true | None => false end = true ->
  ~ frees_memory p.
Proof.
  intros H1 H2 H3 F. apply (leaked _ n H2 H3). apply F. now apply final_ok.
Qed.

(** This is false after each of the operations that [memory_accounted]
    excludes.  Unpacking frees neither the elements nor the mask: *)
Theorem unpack_frees_refuted : exists kd vs,
  let p := prog_of [INew kd 8 vs; IUnpack 0] in
  fits 8 p [] /\ fst (run 8 p empty_state) = [([], []); ([], vs)] /\
  ~ frees_memory p.
Proof.
  exists Plain, [1; 2]. cbv zeta. split; [vm_compute; auto|].
  split; [reflexivity|]. apply (not_freed _ O); vm_compute; reflexivity.
Qed.

(** Discarding a borrow array does not free its mask: *)
Theorem discard_frees_refuted : exists vs,
  let p := prog_of [INew Borrowable 8 vs; IDiscard 0] in
  fits 8 p [] /\ ~ frees_memory p.
Proof.
  exists [1; 2]. cbv zeta. split; [vm_compute; auto|].
  apply (not_freed _ 1%nat); vm_compute; reflexivity.
Qed.

(** Converting a borrow array to an array does not free its mask: *)
Theorem to_array_frees_refuted : exists vs,
  let p := prog_of [INew Borrowable 8 vs; IToArray 0; IDiscard 0] in
  fits 8 p [] /\ ~ frees_memory p.
Proof.
  exists [1; 2]. cbv zeta. split; [vm_compute; auto|].
  apply (not_freed _ 1%nat); vm_compute; reflexivity.
Qed.

(** Popping from an array without elements frees nothing: *)
Theorem pop_empty_frees_refuted : exists v,
  let p := prog_of [INew Plain 8 [v]; IPop 0 true; IPop 0 true] in
  fits 8 p [] /\
  fst (run 8 p empty_state) = [([], []); ([true], [v]); ([false], [])] /\
  ~ frees_memory p.
Proof.
  exists 1. cbv zeta. split; [vm_compute; auto|].
  split; [reflexivity|]. apply (not_freed _ O); vm_compute; reflexivity.
Qed.

(** The size that the mask is said to have at least (extension/collections/borrow_array.rs:5-6)
    is not what is allocated. *)
Theorem mask_size_refuted : exists (n mlen : N) (mp : nat) words,
  let (h, hd) := build_alloc 8 (mem (@empty_state N)) Borrowable 8 n false in
  mask_ptr hd = Some mp /\ cell h mp = Some (Mask mlen words) /\
  mlen * 8 < div_ceil n 8 * 8.
Proof.
  exists 9, 1, 1%nat, (fun _ => 0). cbv. auto.
Qed.

Lemma N2Nat_lt_pos n : 0 < n -> (0 < N.to_nat n)%nat.
Proof. lia. Qed.

(** The index of an element of a constant has 32 bits and is signed. *)
Lemma constants_ub {V} (v : V) p k : forall h i cs,
  cell h p = Some (Elems (2 ^ 31 + 1) cs) ->
  i + N.of_nat k = 2 ^ 31 + 1 -> (0 < k)%nat ->
  store_constants h p i (repeat v k) = UB.
Proof.
  induction k as [|k IH]; intros h i cs Hc Hi Hk; [lia|].
  cbn [repeat store_constants]. unfold const_i32.
  assert (i < 2 ^ 31 + 1) as Hlt by lia.
  assert (i < 2 ^ 32) as H32 by (apply (N.lt_trans _ _ _ Hlt); reflexivity).
  rewrite N.mod_small by exact H32.
  destruct (N.ltb_spec i (2 ^ 31)) as [L|L]; [|reflexivity].
  cbn [use bind].
  destruct (store_spec h p (2 ^ 31 + 1) cs i v Hc Hlt) as (h' & -> & U).
  cbn [bind]. apply (IH _ _ _ (proj1 (proj2 U))); lia.
Qed.

Theorem large_constant_refuted : exists vs : list N,
  fits_size 8 (N.of_nat (length vs)) 1 /\
  snd (run 8 (prog_of [IConst Plain 1 vs]) empty_state) = UB.
Proof.
  exists (repeat 0 (N.to_nat (2 ^ 31 + 1))).
  assert (fits_size 8 (2 ^ 31 + 1) 1) as F by (split; reflexivity).
  rewrite repeat_length, N2Nat.id. split; [exact F|].
  cbn [prog_of run step]. unfold emit_value. rewrite repeat_length, N2Nat.id.
  assert (hwf (mem (@empty_state N))) as Hw by (intros q _; reflexivity).
  assert (1 <= 8) as HB by discriminate.
  pose proof (build_alloc_spec 8 HB (mem empty_state) Plain 1 (2 ^ 31 + 1) false Hw F) as A.
  destruct (build_alloc 8 (mem empty_state) Plain 1 (2 ^ 31 + 1) false) as [h' hd].
  rewrite (constants_ub 0 (elems_ptr hd) (N.to_nat (2 ^ 31 + 1)) h' 0 _
             (f_elems _ _ _ _ _ _ _ _ A)).
  - reflexivity.
  - now rewrite N2Nat.id.
  - apply (N2Nat_lt_pos (2 ^ 31 + 1)). reflexivity.
Qed.

Print Assumptions lowering_refines.
Print Assumptions lowering_defined.
Print Assumptions plain_never_panics.
Print Assumptions memory_accounted.
Print Assumptions mask_covers.
Print Assumptions unpack_frees_refuted.
Print Assumptions discard_frees_refuted.
Print Assumptions to_array_frees_refuted.
Print Assumptions pop_empty_frees_refuted.
Print Assumptions mask_size_refuted.
Print Assumptions large_constant_refuted.

(** * Examples *)

(** Elements that are borrowed and given back, a scan, conversions, a clone,
    pops from both sides and checks of masks that start inside of a word. *)
Definition busy : @prog N := prog_of
  [ INew Borrowable 8 [10; 11; 12; 13; 14];
    IPop 0 true; IPop 0 false;
    IBorrow 0 1; IIsBorrowed 0 1; IIsBorrowed 0 0; IReturn 0 1 99;
    ISet 0 0 7; ISwap 0 0 2; IGet 0 1; IGet 0 3;
    IScan 0 4 (fun i v accs => (v + i, map (fun a => a + v) accs)) [0; 1];
    IClone 0; IToArray 1; IFromArray 1; IUnpack 1;
    IBorrow 0 0; IBorrow 0 1; IBorrow 0 2; IDiscardAllBorrowed 0 ].
Example busy_fits : fits 8 busy [].
Proof.
  cbn. repeat split; try reflexivity.
  - intros kd l [= <- <-]. reflexivity.
  - intros i v l Hl. cbn. now rewrite map_length.
Qed.
Example busy_results :
  fst (run 8 busy empty_state) =
  [ ([], []); ([true], [10]); ([true], [14]);
    ([], [12]); ([true], []); ([false], []); ([], []);
    ([true], [11]); ([true], []); ([true], [99]); ([false], []);
    ([], [119; 120]); ([], []); ([], []); ([], []); ([], [13; 100; 9]);
    ([], [13]); ([], [100]); ([], [9]); ([], []) ] /\
  ends_ok (snd (run 8 busy empty_state)) = true.
Proof. vm_compute. auto. Qed.

(** The panics. *)
Example panics :
  snd (run 8 (prog_of [INew Borrowable 8 [1; 2]; IBorrow 0 1; IBorrow 0 1]) empty_state) =
    Panic AlreadyBorrowed /\
  snd (run 8 (prog_of [INew Borrowable 8 [1; 2]; IReturn 0 1 3]) empty_state) =
    Panic NotBorrowed /\
  snd (run 8 (prog_of [INew Borrowable 8 [1; 2]; IBorrow 0 2]) empty_state) =
    Panic OutOfBounds /\
  snd (run 8 (prog_of [INew Borrowable 8 [1; 2]; IBorrow 0 1; IToArray 0]) empty_state) =
    Panic SomeBorrowed /\
  snd (run 8 (prog_of [INewAllBorrowed 8 70; IReturn 0 69 3; IDiscardAllBorrowed 0]) empty_state) =
    @Panic (@state N) NotAllBorrowed.
Proof. vm_compute. auto. Qed.

(** An array without borrowing. *)
Definition plain : @prog N := prog_of
  [IRepeat Plain 8 3 (fun i => i * i); IClone 0; ISwap 1 0 2; IUnpack 1; IDiscard 0].
Example plain_ok : plain_prog plain /\ fits 8 plain [] /\
  fst (run 8 plain empty_state) =
  [([], []); ([], []); ([true], []); ([], [4; 1; 0]); ([], [])].
Proof. cbn. repeat split; reflexivity. Qed.

(** A program that frees everything. *)
Definition tidy : @prog N := prog_of
  [INewAllBorrowed 8 2; IReturn 0 0 5; IPop 0 true; IDiscardAllBorrowed 0;
   INew Plain 8 [1]; IPop 1 false; IDiscardEmpty 1].
Example tidy_free : all_free tidy [] /\ fits 8 tidy [].
Proof. cbn. repeat split; try reflexivity; intros kd [=]. Qed.
Example tidy_memory :
  forallb (fun p => match cell (mem (final (snd (run 8 tidy empty_state)))) p with
                    | None => true | Some _ => false end) [0; 1; 2; 3]%nat = true.
Proof. vm_compute. reflexivity. Qed.
Example mask_of_70 :
  match cell (fst (build_alloc 8 (mem (@empty_state N)) Borrowable 8 70 true)) 1 with
  | Some (Mask n _) => n = 2 | _ => False end.
Proof. vm_compute. reflexivity. Qed.
