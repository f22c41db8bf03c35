(** Properties of the representation of sums in LLVM (claim C46). *)
From Coq Require Import List Bool Arith NArith Lia Sorted.
From Verif Require Import BMap LayoutModel LayoutSpec LayoutProofs.
Import ListNotations.

(** The positions of a type in a list. *)
Fixpoint positions {T} (teq : T -> T -> bool) (t : T) (i : nat) (l : list T) : list nat :=
  match l with
  | [] => []
  | x :: l => if teq t x then i :: positions teq t (S i) l else positions teq t (S i) l
  end.

Section Props.
Context {T : Type} (cmp : T -> T -> comparison) (TC : total_cmp cmp) (elide : T -> bool).
Context (teq : T -> T -> bool) (teq_eq : forall a b, teq a b = true <-> a = b).

Lemma positions_length t l : forall i, length (positions teq t i l) = occurs teq t l.
Proof. unfold occurs. induction l as [|x l IH]; intros i; cbn; [reflexivity|]. destruct (teq t x); cbn; now rewrite IH. Qed.
Lemma positions_in t l : forall i k, In k (positions teq t i l) <-> i <= k /\ nth_error l (k - i) = Some t.
Proof.
  induction l as [|x l IH]; intros i k; cbn [positions].
  - split; [contradiction|]. intros [_ H]. destruct (k - i); discriminate H.
  - assert (C : In k (positions teq t (S i) l) <-> i < k /\ nth_error (x :: l) (k - i) = Some t).
    { rewrite IH. split; intros [H E]; (split; [lia|]).
      - replace (k - i) with (S (k - S i)) by lia. exact E.
      - replace (k - i) with (S (k - S i)) in E by lia. exact E. }
    destruct (teq t x) eqn:Q; cbn [In]; rewrite C.
    + apply teq_eq in Q as <-. split.
      * intros [<-|[H E]]; [rewrite Nat.sub_diag; split; [lia|reflexivity]|split; [lia|exact E]].
      * intros [H E]. destruct (Nat.eq_dec i k); [now left|right; split; [lia|exact E]].
    + split; [intros [H E]; split; [lia|exact E]|]. intros [H E]. destruct (Nat.eq_dec i k) as [->|].
      * rewrite Nat.sub_diag in E. cbn in E. injection E as ->. now rewrite (teq_refl teq teq_eq) in Q.
      * split; [lia|exact E].
Qed.
Lemma positions_nodup t l : forall i, NoDup (positions teq t i l).
Proof.
  induction l as [|x l IH]; intros i; cbn; [constructor|]. destruct (teq t x); [|apply IH].
  constructor; [|apply IH]. rewrite positions_in. lia.
Qed.

(** A list of fields that holds a variant has enough fields of every type. *)
Lemma good_occurs fields v ix t : good_indices elide fields v ix -> elide t = false ->
  occurs teq t v <= occurs teq t fields.
Proof.
  intros (L & K & U) El. rewrite <- (positions_length t v 0), <- (positions_length t fields 0).
  set (f := fun k => match nth_error ix k with Some (Some i) => i | _ => 0 end).
  assert (HF : forall k, In k (positions teq t 0 v) -> nth_error ix k = Some (Some (f k)) /\ nth_error fields (f k) = Some t).
  { intros k H. apply positions_in in H as [_ H]. rewrite Nat.sub_0_r in H. unfold f.
    destruct (nth_error ix k) as [o|] eqn:Q.
    - specialize (K k t o H Q). rewrite El in K. destruct K as (i & -> & N). auto.
    - apply nth_error_None in Q. assert (nth_error v k <> None) by congruence. apply nth_error_Some in H0. lia. }
  rewrite <- (map_length f). apply NoDup_incl_length.
  - assert (ND := positions_nodup t v 0). revert HF. induction ND as [|k l NI ND IH]; intros HF; cbn; constructor.
    + intros H. apply in_map_iff in H as (k' & E & H). apply NI.
      destruct (HF k (or_introl eq_refl)) as [A _]. destruct (HF k' (or_intror H)) as [B _]. rewrite E in B.
      now rewrite (U _ _ _ A B).
    + apply IH. intros k' H. apply HF. now right.
  - intros i H. apply in_map_iff in H as (k & <- & H). apply positions_in. rewrite Nat.sub_0_r. split; [lia|].
    exact (proj2 (HF k H)).
Qed.

(** C46.  The layout never panics; every variant has its own fields of the right types, none twice;
    the fields are in order; and there is no way with fewer fields of any type. *)
Theorem layout_minimal variants : exists fields indices,
  layout_variants cmp elide variants = Some (fields, indices) /\
  Forall2 (good_indices elide fields) variants indices /\
  StronglySorted (fun a b => cmp a b <> Gt) fields /\
  forall fields' indices', Forall2 (good_indices elide fields') variants indices' ->
    forall t, occurs teq t fields <= occurs teq t fields'.
Proof.
  destruct (layout_spec cmp TC elide teq teq_eq variants) as (fields & indices & E & O & S & F).
  exists fields, indices. repeat split; try assumption. intros f' i' F' t. rewrite O.
  destruct (elide t) eqn:El; [lia|]. clear - F' El teq_eq TC. induction F' as [|v ix vs ixs G F' IH]; [cbn; lia|].
  unfold need in *. cbn. pose proof (good_occurs _ _ _ t G El). lia.
Qed.

(** C46.  Tagging succeeds exactly for the values of a variant; the tag and the values are read back
    as they were written (values of elided types carry no information). *)
Theorem sum_round_trip {V} (typ : V -> T) (undef : T -> V) variants :
  exists s, try_new cmp elide variants = Some s /\ forall tag vs,
  (build_tag typ teq s tag vs <> None <-> exists v, nth_error variants tag = Some v /\ map typ vs = v) /\
  forall r, build_tag typ teq s tag vs = Some r ->
    get_tag s r = Some (N.of_nat tag) /\
    exists reads, untag undef s tag r = Some reads /\ Forall2 (same_field elide typ undef) vs reads.
Proof.
  destruct (try_new_describes cmp TC elide teq teq_eq variants) as (s & E & D). exists s. split; [exact E|].
  now apply (round_trip elide teq teq_eq typ undef variants).
Qed.
End Props.
Print Assumptions layout_minimal.
Print Assumptions sum_round_trip.

(** C46.  The tag is as narrow as it can be. *)
Theorem tag_width_smallest n : 2 <= n ->
  (N.of_nat n <= 2 ^ tag_width n)%N /\ forall w, (N.of_nat n <= 2 ^ w -> tag_width n <= w)%N.
Proof.
  intros H. unfold tag_width. destruct (Nat.eqb_spec n 1); [lia|].
  pose proof (N.log2_spec (N.of_nat (n - 1)) ltac:(lia)) as [A B]. rewrite N.add_1_r. split; [lia|].
  intros w Hw. apply N.le_succ_l. apply (N.pow_lt_mono_r_iff 2); lia.
Qed.
Print Assumptions tag_width_smallest.

(** The documentation of [try_new] and [try_from_hugr_type] (sum.rs:115-116, 136) says that a sum
    without variants is an error; it is a type, though one without values. *)
Theorem empty_sum_refuted : exists s, try_new Nat.compare (fun _ => false) [] = Some s /\ num_variants s = 0.
Proof. exists Void. split; reflexivity. Qed.
Print Assumptions empty_sum_refuted.

(** * Examples *)
Lemma nat_total : total_cmp Nat.compare.
Proof.
  constructor; [apply Nat.compare_eq_iff|apply Nat.compare_antisym|].
  intros a b c. rewrite !Nat.compare_lt_iff. lia.
Qed.
(** Type 0 is elided; two variants, of which both need two fields of type 5. *)
Definition ex_variants := [[5; 0; 7; 5]; [5; 9; 5; 0]].
Example ex_layout : layout_variants Nat.compare (Nat.eqb 0) ex_variants
  = Some ([5; 5; 7; 9], [[Some 0; None; Some 2; Some 1]; [Some 0; Some 3; Some 1; None]]).
Proof. reflexivity. Qed.
Example ex_tag :
  exists s r, try_new Nat.compare (Nat.eqb 0) ex_variants = Some s /\
    build_tag (fun v => v / 10) Nat.eqb s 1 [51; 93; 52; 4] = Some r /\
    get_tag s r = Some 1%N /\ untag (fun t => 10 * t) s 1 r = Some [Some 51; Some 93; Some 52; Some 0].
Proof. eexists. eexists. repeat split; reflexivity. Qed.
Example ex_single : try_new Nat.compare (Nat.eqb 0) [[0; 7; 0]] = Some (SingleField [0; 7; 0] 1).
Proof. reflexivity. Qed.
Example ex_bool : try_new Nat.compare (Nat.eqb 0) [[]; []] = Some (NoFields [[]; []] 1%N).
Proof. reflexivity. Qed.
Example ex_width : tag_width 5 = 3%N.
Proof. reflexivity. Qed.
