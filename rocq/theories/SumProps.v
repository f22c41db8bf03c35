(** C38: sum layout. *)
From Coq Require Import List Bool Arith NArith Lia.
From Verif Require Import BMap SumModel SumSpec SumProofs.
Import ListNotations.

Section Props.
  Context {T V : Type} (cmp : T -> T -> comparison) (TC : total_cmp cmp)
          (teq : forall a b : T, {a = b} + {a <> b}) (elide : T -> bool) (ty : V -> T) (undef : T -> V).

  (** The layout never aborts; every stored field has a slot of its type, no two of a variant
      share one, elided fields have none, and no slot is superfluous. *)
  Theorem sum_layout_good variants : exists fields layout,
    layout_variants cmp elide variants = Some (fields, layout) /\ good_layout teq elide variants fields layout.
  Proof. apply layout_good. assumption. Qed.

  (** Every sum type is representable; every well-typed variant value can be built, its tag, its
      fields and the branch taken by a destructuring switch are those stored. *)
  Theorem sum_values_roundtrip variants : exists s,
    try_new cmp elide variants = Some s /\ num_variants s = length variants /\
    forall k ts vs, nth_error variants k = Some ts -> map ty vs = ts ->
      exists r, build_tag teq ty s k vs = Some r /\ get_tag s r = Some (N.of_nat k) /\
        untag undef s r k = Some (readback elide undef ts vs) /\
        destructure undef s r = Some (k, readback elide undef ts vs).
  Proof.
    destruct (sum_usable cmp TC teq elide ty undef variants) as (s & E & H1 & _ & H3).
    exists s. split; [assumption|]. split; [assumption|]. intros k ts vs Hk HT. apply H3; [assumption|]. subst ts.
    clear. induction vs as [|v vs IH]; cbn; [reflexivity|]. destruct (teq (ty v) (ty v)); [assumption|congruence].
  Qed.

  (** Ill-typed or out-of-range requests are refused. *)
  Theorem sum_build_rejects variants s k vs r :
    try_new cmp elide variants = Some s -> build_tag teq ty s k vs = Some r ->
    nth_error variants k = Some (map ty vs).
  Proof.
    intros E H. destruct (sum_usable cmp TC teq elide ty undef variants) as (s' & E' & H1 & H2 & _).
    rewrite E in E'. injection E' as <-. apply build_tag_types in H as (Hk & ts & Hts & HT).
    rewrite H1 in Hk. apply nth_error_Some in Hk. destruct (nth_error variants k) as [ts'|] eqn:G; [|congruence].
    rewrite (H2 k ts' G) in Hts. injection Hts as ->. f_equal. clear - HT. revert ts HT.
    induction vs as [|v vs IH]; intros [|t ts]; cbn; try discriminate; [reflexivity|].
    intros H. apply andb_true_iff in H as [E H]. destruct (teq (ty v) t); [|discriminate]. f_equal; auto.
  Qed.

  (** The tag always fits its integer type. *)
  Theorem tag_width_sufficient n k : (k < n)%N -> const_int (tag_width n) k = k.
  Proof. apply const_int_tag. Qed.
  (** ... which is the narrowest one possible (at least one bit). *)
  Theorem tag_width_minimal n w : (2 <= n)%N -> (forall k, (k < n)%N -> const_int w k = k) -> (tag_width n <= w)%N.
  Proof.
    intros Hn H. specialize (H (n - 1)%N ltac:(lia)). unfold tag_width. destruct (N.eqb_spec n 1); [lia|].
    assert (L : (n - 1 < 2 ^ w)%N).
    { rewrite <- H. apply N.mod_lt. apply N.pow_nonzero. discriminate. }
    apply N.log2_lt_pow2 in L; lia.
  Qed.
End Props.

(** *** Concrete cases; types are numbers, 0 is elidable, a value is (type, payload). *)
Definition ex_cmp := Nat.compare.
Lemma ex_TC : total_cmp ex_cmp.
Proof.
  split; unfold ex_cmp.
  - intros; apply Nat.compare_eq_iff.
  - intros; apply Nat.compare_antisym.
  - intros a b c; rewrite !Nat.compare_lt_iff; lia.
Qed.
Definition ex_elide (t : nat) := t =? 0.
Definition ex_undef (t : nat) : nat * nat := (t, 99).
Example layout_ex : layout_variants ex_cmp ex_elide [[9; 10]; [0; 9; 9]; [11; 10; 8]] =
  Some ([8; 9; 9; 10; 11], [[Some 1; Some 3]; [None; Some 1; Some 2]; [Some 4; Some 3; Some 0]]).
Proof. reflexivity. Qed.
Example roundtrip_ex : exists s, try_new ex_cmp ex_elide [[9; 10]; [0; 9; 9]; [11; 10; 8]] = Some s /\
  exists r, build_tag Nat.eq_dec fst s 1 [(0, 5); (9, 6); (9, 7)] = Some r /\
    destructure ex_undef s r = Some (1, [(0, 99); (9, 6); (9, 7)]) /\ tag_type s = 2%N.
Proof. eexists. split; [reflexivity|]. eexists. split; [reflexivity|]. split; reflexivity. Qed.
Example single_ex : try_new ex_cmp ex_elide [[0; 9; 0]] = Some (Single [0; 9; 0] 1).
Proof. reflexivity. Qed.
Example nofields_ex : try_new ex_cmp ex_elide [[0]; []; [0; 0]] = Some (NoFields [[0]; []; [0; 0]] 2).
Proof. reflexivity. Qed.
Example good_ex : exists f l, layout_variants ex_cmp ex_elide [[9; 10]; [0; 9; 9]] = Some (f, l) /\
  good_layout Nat.eq_dec ex_elide [[9; 10]; [0; 9; 9]] f l.
Proof. apply sum_layout_good, ex_TC. Qed.

Print Assumptions sum_layout_good.
Print Assumptions sum_values_roundtrip.
Print Assumptions sum_build_rejects.
Print Assumptions tag_width_sufficient.
Print Assumptions tag_width_minimal.
