(** Proofs about types, kinds and substitution. *)
From Coq Require Import List Bool NArith Arith Lia.
From Verif Require Import TypesModel TypesSpec.
Import ListNotations.

(** ** Induction over types and terms together *)
Section Ind.
  Variables (P : ty -> Prop) (Q : term -> Prop).
  Hypothesis HExt : forall e i args b, Forall Q args -> P (TExt e i args b).
  Hypothesis HAlias : forall n b, P (TAlias n b).
  Hypothesis HFun : forall x y, Forall P x -> Forall P y -> P (TFun x y).
  Hypothesis HVar : forall i b, P (TVar i b).
  Hypothesis HRow : forall i b, P (TRow i b).
  Hypothesis HSum : forall rows b, Forall (Forall P) rows -> P (TSum rows b).
  Hypothesis HKType : forall b, Q (KType b).
  Hypothesis HKStatic : Q KStatic.
  Hypothesis HKNat : forall b, Q (KNat b).
  Hypothesis HKString : Q KString.
  Hypothesis HKBytes : Q KBytes.
  Hypothesis HKFloat : Q KFloat.
  Hypothesis HKList : forall x, Q x -> Q (KList x).
  Hypothesis HKTuple : forall x, Q x -> Q (KTuple x).
  Hypothesis HKConst : forall t, P t -> Q (KConst t).
  Hypothesis HType : forall t, P t -> Q (MType t).
  Hypothesis HNat : forall n, Q (MNat n).
  Hypothesis HString : forall s, Q (MString s).
  Hypothesis HBytes : forall s, Q (MBytes s).
  Hypothesis HFloat : forall n, Q (MFloat n).
  Hypothesis HList : forall l, Forall Q l -> Q (MList l).
  Hypothesis HListConcat : forall l, Forall Q l -> Q (MListConcat l).
  Hypothesis HTuple : forall l, Forall Q l -> Q (MTuple l).
  Hypothesis HTupleConcat : forall l, Forall Q l -> Q (MTupleConcat l).
  Hypothesis HMVar : forall i d, Q d -> Q (MVar i d).

  Definition all_list {A} (R : A -> Prop) (f : forall a, R a) : forall l, Forall R l :=
    fix go l := match l with [] => Forall_nil _ | x :: r => Forall_cons x (f x) (go r) end.

  Fixpoint ty_rect2 (t : ty) : P t :=
    match t return P t with
    | TExt e i args b => HExt e i args b (all_list Q term_rect2 args)
    | TAlias n b => HAlias n b
    | TFun x y => HFun x y (all_list P ty_rect2 x) (all_list P ty_rect2 y)
    | TVar i b => HVar i b
    | TRow i b => HRow i b
    | TSum rows b => HSum rows b (all_list (Forall P) (all_list P ty_rect2) rows)
    end
  with term_rect2 (t : term) : Q t :=
    match t return Q t with
    | KType b => HKType b
    | KStatic => HKStatic
    | KNat b => HKNat b
    | KString => HKString
    | KBytes => HKBytes
    | KFloat => HKFloat
    | KList x => HKList x (term_rect2 x)
    | KTuple x => HKTuple x (term_rect2 x)
    | KConst x => HKConst x (ty_rect2 x)
    | MType x => HType x (ty_rect2 x)
    | MNat n => HNat n
    | MString s => HString s
    | MBytes s => HBytes s
    | MFloat n => HFloat n
    | MList l => HList l (all_list Q term_rect2 l)
    | MListConcat l => HListConcat l (all_list Q term_rect2 l)
    | MTuple l => HTuple l (all_list Q term_rect2 l)
    | MTupleConcat l => HTupleConcat l (all_list Q term_rect2 l)
    | MVar i d => HMVar i d (term_rect2 d)
    end.

  Lemma both_ind : (forall t, P t) /\ (forall t, Q t).
  Proof. split; [exact ty_rect2|exact term_rect2]. Qed.
End Ind.

(** ** Lists of options and boolean tests *)
Lemma all_some_cons : forall {A} (x : option A) l r,
  all_some (x :: l) = Some r <-> exists a b, x = Some a /\ all_some l = Some b /\ r = a :: b.
Proof.
  intros A x l r. cbn [all_some fold_right]. fold (@all_some A l).
  destruct x as [a|], (all_some l) as [b|]; split; try discriminate.
  - intros E. injection E as <-. eauto.
  - intros (a' & b' & E1 & E2 & ->). congruence.
  - intros (a' & b' & E1 & E2 & ->). discriminate.
  - intros (a' & b' & E1 & E2 & ->). discriminate.
  - intros (a' & b' & E1 & E2 & ->). discriminate.
Qed.

Lemma all_some_Forall2 : forall {A B} (f : A -> option B) l r,
  all_some (map f l) = Some r <-> Forall2 (fun a b => f a = Some b) l r.
Proof.
  intros A B f l. induction l as [|a l IH]; intros r.
  - cbn. split; [intros E; injection E as <-; constructor|intros F; inversion F; reflexivity].
  - cbn [map]. rewrite all_some_cons. split.
    + intros (x & y & E & E2 & ->). constructor; [exact E|apply IH; exact E2].
    + intros F. inversion F as [|? x ? y E F2]; subst. exists x, y. rewrite (proj2 (IH y)); auto.
Qed.

Lemma all_some_None : forall {A B} (f : A -> option B) l,
  all_some (map f l) = None <-> exists a, In a l /\ f a = None.
Proof.
  intros A B f l. induction l as [|a l IH]; cbn [map].
  - cbn. split; [discriminate|intros (? & [] & _)].
  - cbn [all_some fold_right]. fold (@all_some B (map f l)). destruct (f a) as [b|] eqn:E.
    + destruct (all_some (map f l)) as [r|] eqn:E2.
      * split; [discriminate|]. intros (x & [<-|I] & N); [congruence|].
        assert (X : Some r = None) by (apply IH; eauto). discriminate.
      * split; [|reflexivity]. intros _. destruct (proj1 IH eq_refl) as (x & I & N). exists x; cbn; auto.
    + split; [|reflexivity]. intros _. exists a. cbn. auto.
Qed.

Lemma Forall2_In_l : forall {A B} (R : A -> B -> Prop) l m a,
  Forall2 R l m -> In a l -> exists b, In b m /\ R a b.
Proof.
  intros A B R l m a F. induction F as [|x y l m H F IH]; intros [].
  - subst. exists y. cbn. auto.
  - destruct IH as (b & I & H2); auto. exists b. cbn. auto.
Qed.

Lemma Forall2_In_r : forall {A B} (R : A -> B -> Prop) l m b,
  Forall2 R l m -> In b m -> exists a, In a l /\ R a b.
Proof.
  intros A B R l m b F. induction F as [|x y l m H F IH]; intros [].
  - subst. exists x. cbn. auto.
  - destruct IH as (a & I & H2); auto. exists a. cbn. auto.
Qed.

Lemma Forall2_map_eq : forall {A B C} (f : A -> C) (g : B -> C) l m,
  Forall2 (fun a b => f a = g b) l m -> map f l = map g m.
Proof. intros A B C f g l m F. induction F; cbn; congruence. Qed.

Lemma Forall2_nth_l : forall {A B} (R : A -> B -> Prop) l m i a,
  Forall2 R l m -> nth_error l i = Some a -> exists b, nth_error m i = Some b /\ R a b.
Proof.
  intros A B R l m i a F. revert i. induction F as [|x y l m H F IH]; intros [|i]; cbn; try discriminate.
  - intros E. injection E as <-. eauto.
  - apply IH.
Qed.

Lemma Forall2_nth_r : forall {A B} (R : A -> B -> Prop) l m i b,
  Forall2 R l m -> nth_error m i = Some b -> exists a, nth_error l i = Some a /\ R a b.
Proof.
  intros A B R l m i a F. revert i. induction F as [|x y l m H F IH]; intros [|i]; cbn; try discriminate.
  - intros E. injection E as <-. eauto.
  - apply IH.
Qed.

Lemma Forall2_impl_In : forall {A B} (R S : A -> B -> Prop) l m,
  (forall a b, In a l -> In b m -> R a b -> S a b) -> Forall2 R l m -> Forall2 S l m.
Proof.
  intros A B R S l m H F. induction F as [|x y l m H1 F IH]; constructor.
  - apply H; cbn; auto.
  - apply IH. intros a b I J. apply H; cbn; auto.
Qed.

Lemma Forall2_len : forall {A B} (R : A -> B -> Prop) l m, Forall2 R l m -> length l = length m.
Proof. intros A B R l m F. induction F; cbn; congruence. Qed.

Lemma list_eqb_Forall2 : forall {A} (f : A -> A -> bool) l m,
  list_eqb f l m = true <-> Forall2 (fun a b => f a b = true) l m.
Proof.
  intros A f l. induction l as [|a l IH]; intros [|b m]; cbn [list_eqb].
  - split; [constructor|reflexivity].
  - split; [discriminate|intros F; inversion F].
  - split; [discriminate|intros F; inversion F].
  - rewrite andb_true_iff, IH. split.
    + intros [X Y]. constructor; auto.
    + intros F. inversion F; auto.
Qed.

Lemma fold_and : forall {A} (R : A -> Prop) l,
  fold_right (fun a P => R a /\ P) True l <-> Forall R l.
Proof.
  intros A R l. induction l as [|a l IH]; cbn.
  - split; [constructor|trivial].
  - rewrite IH. split; [intros [X Y]; constructor; auto|intros F; inversion F; auto].
Qed.

(** ** Equality tests *)
Lemma beqb_eq : forall a b, beqb a b = true <-> a = b.
Proof. intros [] []; cbn; split; congruence. Qed.

Lemma optN_eqb_eq : forall a b, optN_eqb a b = true <-> a = b.
Proof.
  intros [x|] [y|]; cbn; try (split; congruence).
  rewrite N.eqb_eq. split; congruence.
Qed.

Lemma list_eqb_eq : forall {A} (f : A -> A -> bool) l,
  Forall (fun a => forall b, f a b = true <-> a = b) l -> forall m, list_eqb f l m = true <-> l = m.
Proof.
  intros A f l F. induction F as [|a l H F IH]; intros [|b m]; cbn [list_eqb].
  - split; reflexivity.
  - split; discriminate.
  - split; discriminate.
  - rewrite andb_true_iff, H, IH. split; [intros [-> ->]; reflexivity|intros E; injection E; auto].
Qed.

Lemma list_eqb_N : forall l m, list_eqb N.eqb l m = true <-> l = m.
Proof.
  intros l m. apply list_eqb_eq. apply Forall_forall. intros a _ b. apply N.eqb_eq.
Qed.

Ltac break_and :=
  repeat match goal with
  | H : _ /\ _ |- _ => destruct H
  | H : exists _, _ |- _ => destruct H
  end.

Lemma eqb_eq_both :
  (forall a b, ty_eqb a b = true <-> a = b) /\ (forall a b, term_eqb a b = true <-> a = b).
Proof.
  apply both_ind.
  - intros e i args bd F b'. destruct b'; cbn [ty_eqb]; try (split; discriminate).
    rewrite !andb_true_iff, !N.eqb_eq, beqb_eq, (list_eqb_eq _ _ F).
    split; [intros [[[-> ->] ->] ->]; reflexivity|intros E; injection E; auto].
  - intros n bd b'. destruct b'; cbn [ty_eqb]; try (split; discriminate).
    rewrite andb_true_iff, N.eqb_eq, beqb_eq.
    split; [intros [-> ->]; reflexivity|intros E; injection E; auto].
  - intros x y F G b'. destruct b'; cbn [ty_eqb]; try (split; discriminate).
    rewrite andb_true_iff, (list_eqb_eq _ _ F), (list_eqb_eq _ _ G).
    split; [intros [-> ->]; reflexivity|intros E; injection E; auto].
  - intros n bd b'. destruct b'; cbn [ty_eqb]; try (split; discriminate).
    rewrite andb_true_iff, Nat.eqb_eq, beqb_eq.
    split; [intros [-> ->]; reflexivity|intros E; injection E; auto].
  - intros n bd b'. destruct b'; cbn [ty_eqb]; try (split; discriminate).
    rewrite andb_true_iff, Nat.eqb_eq, beqb_eq.
    split; [intros [-> ->]; reflexivity|intros E; injection E; auto].
  - intros rows bd F b'. destruct b'; cbn [ty_eqb]; try (split; discriminate).
    rewrite andb_true_iff, beqb_eq, (list_eqb_eq (list_eqb ty_eqb)).
    + split; [intros [-> ->]; reflexivity|intros E; injection E; auto].
    + eapply Forall_impl; [|exact F]. intros row G m. apply list_eqb_eq. exact G.
  - intros b b'. destruct b'; cbn [term_eqb]; try (split; discriminate).
    rewrite beqb_eq. split; congruence.
  - intros b'. destruct b'; cbn [term_eqb]; try (split; discriminate). split; reflexivity.
  - intros b b'. destruct b'; cbn [term_eqb]; try (split; discriminate).
    rewrite optN_eqb_eq. split; congruence.
  - intros b'. destruct b'; cbn [term_eqb]; try (split; discriminate). split; reflexivity.
  - intros b'. destruct b'; cbn [term_eqb]; try (split; discriminate). split; reflexivity.
  - intros b'. destruct b'; cbn [term_eqb]; try (split; discriminate). split; reflexivity.
  - intros x IH b'. destruct b'; cbn [term_eqb]; try (split; discriminate).
    rewrite IH. split; congruence.
  - intros x IH b'. destruct b'; cbn [term_eqb]; try (split; discriminate).
    rewrite IH. split; congruence.
  - intros x IH b'. destruct b'; cbn [term_eqb]; try (split; discriminate).
    rewrite IH. split; congruence.
  - intros x IH b'. destruct b'; cbn [term_eqb]; try (split; discriminate).
    rewrite IH. split; congruence.
  - intros n b'. destruct b'; cbn [term_eqb]; try (split; discriminate).
    rewrite N.eqb_eq. split; congruence.
  - intros n b'. destruct b'; cbn [term_eqb]; try (split; discriminate).
    rewrite list_eqb_N. split; congruence.
  - intros n b'. destruct b'; cbn [term_eqb]; try (split; discriminate).
    rewrite list_eqb_N. split; congruence.
  - intros n b'. destruct b'; cbn [term_eqb]; try (split; discriminate).
    rewrite N.eqb_eq. split; congruence.
  - intros l F b'. destruct b'; cbn [term_eqb]; try (split; discriminate).
    rewrite (list_eqb_eq _ _ F). split; congruence.
  - intros l F b'. destruct b'; cbn [term_eqb]; try (split; discriminate).
    rewrite (list_eqb_eq _ _ F). split; congruence.
  - intros l F b'. destruct b'; cbn [term_eqb]; try (split; discriminate).
    rewrite (list_eqb_eq _ _ F). split; congruence.
  - intros l F b'. destruct b'; cbn [term_eqb]; try (split; discriminate).
    rewrite (list_eqb_eq _ _ F). split; congruence.
  - intros i d IH b'. destruct b'; cbn [term_eqb]; try (split; discriminate).
    rewrite andb_true_iff, Nat.eqb_eq, IH. split; [intros [-> ->]; reflexivity|intros E; injection E; auto].
Qed.
Definition ty_eqb_eq := proj1 eqb_eq_both.
Definition term_eqb_eq := proj2 eqb_eq_both.

(** ** Bounds *)
Lemma bcontains_refl : forall b, bcontains b b = true.
Proof. intros []; reflexivity. Qed.

Lemma bcontains_trans : forall a b c, bcontains a b = true -> bcontains b c = true -> bcontains a c = true.
Proof. intros [] [] []; cbn; congruence. Qed.

Lemma bcontains_Copyable : forall b, bcontains Copyable b = true <-> b = Copyable.
Proof. intros []; cbn; split; congruence. Qed.

Lemma lub_list_Linear : forall l, lub_list Linear l = Linear.
Proof. intros [|b l]; reflexivity. Qed.

Lemma lub_list_Copyable : forall l, lub_list Copyable l = Copyable <-> forall b, In b l -> b = Copyable.
Proof.
  induction l as [|b l IH]; cbn [lub_list].
  - split; [intros _ b []|reflexivity].
  - destruct b; cbn [beqb orb bunion bcontains].
    + rewrite IH. split.
      * intros H b [<-|I]; auto.
      * intros H b I. apply H. cbn. auto.
    + split; [discriminate|]. intros H. discriminate (H Linear (or_introl eq_refl)).
Qed.

Lemma lub_of_le : forall l m,
  (forall b, In b l -> exists c, In c m /\ bcontains c b = true) -> bcontains (lub_of m) (lub_of l) = true.
Proof.
  intros l m H. unfold lub_of. destruct (lub_list Copyable m) eqn:E; [|reflexivity].
  rewrite lub_list_Copyable in E. apply bcontains_Copyable, lub_list_Copyable.
  intros b I. destruct (H b I) as (c & J & C). rewrite (E c J) in C. now apply bcontains_Copyable.
Qed.

(** ** Kinds *)
Lemma ub_contains_trans : forall a b c, ub_contains a b = true -> ub_contains b c = true -> ub_contains a c = true.
Proof.
  intros [a|] [b|] [c|]; cbn; try congruence. rewrite !N.leb_le. lia.
Qed.

Lemma ub_contains_refl : forall a, ub_contains a a = true.
Proof. intros [a|]; cbn; [|reflexivity]. apply N.leb_refl. Qed.

Lemma ub_valid_mono : forall a b n, ub_contains a b = true -> ub_valid b n = true -> ub_valid a n = true.
Proof.
  intros a b n. unfold ub_valid. rewrite !orb_true_iff. intros C [E|V]; [auto|right].
  destruct a as [a|]; [|reflexivity]. destruct b as [b|]; cbn in C; [|discriminate].
  rewrite N.leb_le in C. rewrite N.ltb_lt in *. lia.
Qed.

Lemma supertype_refl_iff : forall k, is_supertype k k = true <-> self_kind k = true.
Proof.
  refine (proj2 (both_ind (fun _ => True) (fun k => is_supertype k k = true <-> self_kind k = true)
    _ _ _ _ _ _ _ _ _ _ _ _ _ _ _ _ _ _ _ _ _ _ _ _ _)); auto; cbn [is_supertype self_kind]; intros.
  - rewrite bcontains_refl; tauto.
  - tauto.
  - rewrite ub_contains_refl; tauto.
  - tauto.
  - tauto.
  - tauto.
  - split; discriminate.
  - rewrite (proj2 (ty_eqb_eq t t) eq_refl); tauto.
  - rewrite N.eqb_refl; tauto.
  - rewrite (proj2 (list_eqb_N s s) eq_refl); tauto.
  - rewrite (proj2 (list_eqb_N s s) eq_refl); tauto.
  - rewrite N.eqb_refl; tauto.
  - induction H as [|a l H F IH]; cbn; [tauto|]. rewrite !andb_true_iff. tauto.
  - split; discriminate.
  - induction H as [|a l H F IH]; cbn; [tauto|]. rewrite !andb_true_iff. tauto.
  - split; discriminate.
  - rewrite Nat.eqb_refl, (proj2 (term_eqb_eq d d) eq_refl). tauto.
Qed.

Lemma list_trans : forall l,
  Forall (fun a => forall b c, is_supertype a b = true -> is_supertype b c = true -> is_supertype a c = true) l ->
  forall m n, list_eqb is_supertype l m = true -> list_eqb is_supertype m n = true ->
              list_eqb is_supertype l n = true.
Proof.
  intros l F. induction F as [|a l H F IH]; intros [|b m] [|c n]; cbn [list_eqb]; try congruence.
  rewrite !andb_true_iff. intros [X Y] [X' Y']. split; eauto.
Qed.

Ltac one b := destruct b; cbn [is_supertype]; try discriminate.
Ltac two b c :=
  destruct b; cbn [is_supertype]; try discriminate; destruct c; cbn [is_supertype]; try discriminate.

Lemma supertype_trans : forall a b c,
  is_supertype a b = true -> is_supertype b c = true -> is_supertype a c = true.
Proof.
  refine (proj2 (both_ind (fun _ => True) (fun a => forall b c,
    is_supertype a b = true -> is_supertype b c = true -> is_supertype a c = true)
    _ _ _ _ _ _ _ _ _ _ _ _ _ _ _ _ _ _ _ _ _ _ _ _ _));
  auto.
  - intros x b c. two b c. apply bcontains_trans.
  - intros b c. two b c. auto.
  - intros x b c. two b c. apply ub_contains_trans.
  - intros b c. two b c. auto.
  - intros b c. two b c. auto.
  - intros b c. two b c. auto.
  - intros x IH b c. two b c. apply IH.
  - intros x IH b c. two b c. apply IH.
  - intros x IH b c. two b c. rewrite !ty_eqb_eq. congruence.
  - intros x b c. two b c. rewrite !N.eqb_eq. congruence.
  - intros x b c. two b c. rewrite !list_eqb_N. congruence.
  - intros x b c. two b c. rewrite !list_eqb_N. congruence.
  - intros x b c. two b c. rewrite !N.eqb_eq. congruence.
  - intros l F b c. two b c. apply list_trans. exact F.
  - intros l F b c. two b c. apply list_trans. exact F.
  - intros i d _ b c. two b c.
    rewrite !andb_true_iff, !Nat.eqb_eq, !term_eqb_eq. intros [-> ->] [-> ->]. auto.
Qed.

Lemma supertype_antisym : forall a b, is_supertype a b = true -> is_supertype b a = true -> a = b.
Proof.
  refine (proj2 (both_ind (fun _ => True) (fun a => forall b,
    is_supertype a b = true -> is_supertype b a = true -> a = b)
    _ _ _ _ _ _ _ _ _ _ _ _ _ _ _ _ _ _ _ _ _ _ _ _ _)); auto;
  try (intros x [] b' X; cbn [is_supertype] in X |- *; discriminate).
  - intros x b. one b. destruct x, b; cbn; congruence.
  - intros b. one b. auto.
  - intros [x|] b; one b; destruct bound as [y|]; cbn [ub_contains]; try discriminate.
    + rewrite !N.leb_le. intros. f_equal. f_equal. lia.
    + reflexivity.
  - intros b. one b. auto.
  - intros b. one b. auto.
  - intros b. one b. auto.
  - intros x IH b. one b. intros. f_equal. auto.
  - intros x IH b. one b. intros. f_equal. auto.
  - intros x IH b. one b. rewrite !ty_eqb_eq. congruence.
  - intros x b. one b. rewrite !N.eqb_eq. congruence.
  - intros x b. one b. rewrite !list_eqb_N. congruence.
  - intros x b. one b. rewrite !list_eqb_N. congruence.
  - intros x b. one b. rewrite !N.eqb_eq. congruence.
  - intros l F b. one b. intros X Y. f_equal. revert l0 X Y.
    induction F as [|a l H F IH]; intros [|b m]; cbn [list_eqb]; try discriminate; auto.
    rewrite !andb_true_iff. intros [X Y] [X' Y']. f_equal; auto.
  - intros l F b. one b. intros X Y. f_equal. revert l0 X Y.
    induction F as [|a l H F IH]; intros [|b m]; cbn [list_eqb]; try discriminate; auto.
    rewrite !andb_true_iff. intros [X Y] [X' Y']. f_equal; auto.
  - intros i d _ b. one b. rewrite !andb_true_iff, !Nat.eqb_eq, !term_eqb_eq. intros [-> ->] _. auto.
Qed.

(** A larger kind splits into parts of the same shape. *)
Definition part_le (p q : part term) : Prop :=
  match p, q with
  | Item a, Item b => is_supertype a b = true
  | Splice _, Splice _ => True
  | _, _ => False
  end.

Lemma supertype_parts : forall a b, is_supertype a b = true -> Forall2 part_le (list_parts a) (list_parts b).
Proof.
  intros a b. destruct a, b; cbn [is_supertype list_parts]; try discriminate;
    try (intros _; constructor; [exact I|constructor]).
  rewrite list_eqb_Forall2. intros F. induction F; cbn; constructor; auto.
Qed.

Lemma check_zip_mono : forall ts ks ks',
  Forall (fun p => match p with
                   | Item f => forall k k', is_supertype k' k = true -> f k = true -> f k' = true
                   | Splice _ => True end) ts ->
  Forall2 part_le ks' ks -> check_zip ts ks = true -> check_zip ts ks' = true.
Proof.
  intros ts ks ks' F G. revert ts F. induction G as [|k' k ks' ks H G IH]; intros ts F.
  - auto.
  - destruct F as [|p ts Hp F]; cbn [check_zip]; [auto|].
    destruct p as [f|f], k as [k|k], k' as [k'|k']; cbn [part_le] in H; try contradiction; auto.
    rewrite !andb_true_iff. intros [X Y]. split; [eapply Hp; eassumption|auto].
Qed.

Definition mono (t : term) : Prop :=
  (forall k k', is_supertype k' k = true -> check_term t k = true -> check_term t k' = true) /\
  Forall (fun p => match p with
                   | Item f => forall k k', is_supertype k' k = true -> f k = true -> f k' = true
                   | Splice _ => True end) (check_parts t).

Lemma mono_all : forall t, mono t.
Proof.
  refine (proj2 (both_ind (fun _ => True) mono
    _ _ _ _ _ _ _ _ _ _ _ _ _ _ _ _ _ _ _ _ _ _ _ _ _)); auto; unfold mono.
  all: try (intros; split; [|constructor; [exact I|constructor]];
            intros k k' S; destruct k', k; cbn [is_supertype] in S; try discriminate;
            cbn [check_term]; congruence).
  - intros t _. split; [|constructor; [exact I|constructor]].
    intros k k' S; destruct k', k; cbn [is_supertype] in S; try discriminate; cbn [check_term]; try discriminate.
    intros X. eapply bcontains_trans; eassumption.
  - intros n. split; [|constructor; [exact I|constructor]].
    intros k k' S; destruct k', k; cbn [is_supertype] in S; try discriminate; cbn [check_term]; try discriminate.
    apply ub_valid_mono. exact S.
  - intros l F. split; [|constructor; [exact I|constructor]].
    intros k k' S. destruct k', k; cbn [is_supertype] in S; try discriminate; cbn [check_term]; try discriminate.
    rewrite !forallb_forall. intros H e I. specialize (H e I). rewrite Forall_forall in F.
    destruct (F e I) as [M _].
    assert (D : check_term e k = true -> check_term e k' = true) by (apply M; exact S).
    destruct e; try (apply D; exact H).
    destruct k', k; cbn [is_supertype] in S; try discriminate; try (apply D; exact H).
    destruct (row_bound e); [|apply D; exact H].
    apply orb_true_iff. apply orb_true_iff in H. destruct H as [H|H].
    + left. eapply bcontains_trans; eassumption.
    + right. apply D. exact H.
  - intros l F. split; [|constructor; [exact I|constructor]].
    intros k k' S. destruct k', k; cbn [is_supertype] in S; try discriminate; cbn [check_term]; try discriminate.
    rewrite !forallb_forall. intros H e I. rewrite Forall_forall in F. eapply (proj1 (F e I)); eauto.
  - intros l F.
    assert (G : Forall (fun p => match p with
                   | Item f => forall k k', is_supertype k' k = true -> f k = true -> f k' = true
                   | Splice _ => True end) (map (fun e => Item (check_term e)) l)).
    { apply Forall_forall. intros p I. apply in_map_iff in I. destruct I as (e & <- & I).
      rewrite Forall_forall in F. exact (proj1 (F e I)). }
    split; [|exact G].
    intros k k' S. destruct k', k; cbn [is_supertype] in S; try discriminate; cbn [check_term]; try discriminate.
    apply check_zip_mono; [exact G|]. apply supertype_parts. exact S.
  - intros l F.
    assert (G : Forall (fun p => match p with
                   | Item f => forall k k', is_supertype k' k = true -> f k = true -> f k' = true
                   | Splice _ => True end) (flat_map check_parts l)).
    { apply Forall_forall. intros p I. apply in_flat_map in I. destruct I as (e & I & J).
      rewrite Forall_forall in F. destruct (F e I) as [_ H]. rewrite Forall_forall in H. exact (H p J). }
    split; [|exact G].
    intros k k' S. destruct k', k; cbn [is_supertype] in S; try discriminate; cbn [check_term]; try discriminate.
    apply check_zip_mono; [exact G|]. apply supertype_parts. exact S.
  - intros i d _. split; [|constructor; [exact I|constructor]].
    intros k k' S X. cbn [check_term] in *. eapply supertype_trans; eassumption.
Qed.

Lemma check_mono : forall t k k', is_supertype k' k = true -> check_term t k = true -> check_term t k' = true.
Proof. intros t. exact (proj1 (mono_all t)). Qed.

(** ** Lists and tuples built from parts *)
Definition on_part (R : term -> Prop) (p : part term) : Prop :=
  match p with Item t => R t | Splice t => R t end.

Lemma seq_from_ok : forall (R : term -> Prop) mk mkc,
  (forall l, Forall R l -> R (mk l)) -> (forall l, Forall R l -> R (mkc l)) ->
  forall ps items seqs, Forall R items -> Forall R seqs -> Forall (on_part R) ps ->
  R (seq_from mk mkc items seqs ps).
Proof.
  intros R mk mkc Hm Hc ps. induction ps as [|p ps IH]; intros items seqs Fi Fs Fp; cbn [seq_from].
  - destruct seqs; [auto|]. destruct items; [auto|]. apply Hc. apply Forall_app. auto.
  - inversion Fp as [|? ? Hp Fp']; subst. destruct p as [t|t]; cbn [on_part] in Hp.
    + apply IH; auto. apply Forall_app. auto.
    + apply IH; auto. destruct items; apply Forall_app; auto.
Qed.

Lemma list_parts_ok : forall (R : term -> Prop),
  (forall l, R (MList l) -> Forall R l) -> (forall l, R (MListConcat l) -> Forall R l) ->
  forall t, R t -> Forall (on_part R) (list_parts t).
Proof.
  intros R HL HC.
  refine (proj2 (both_ind (fun _ => True) (fun t => R t -> Forall (on_part R) (list_parts t))
    _ _ _ _ _ _ _ _ _ _ _ _ _ _ _ _ _ _ _ _ _ _ _ _ _)); auto;
    try (intros; cbn [list_parts]; constructor; [assumption|constructor]).
  - intros l _ H. cbn [list_parts]. apply HL in H. apply Forall_forall. intros p I.
    apply in_map_iff in I. destruct I as (e & <- & I). rewrite Forall_forall in H. exact (H e I).
  - intros l F H. cbn [list_parts]. apply HC in H. apply Forall_forall. intros p I.
    apply in_flat_map in I. destruct I as (e & I & J). rewrite Forall_forall in F, H.
    specialize (F e I (H e I)). rewrite Forall_forall in F. exact (F p J).
Qed.

Lemma tuple_parts_ok : forall (R : term -> Prop),
  (forall l, R (MTuple l) -> Forall R l) -> (forall l, R (MTupleConcat l) -> Forall R l) ->
  forall t, R t -> Forall (on_part R) (tuple_parts t).
Proof.
  intros R HL HC.
  refine (proj2 (both_ind (fun _ => True) (fun t => R t -> Forall (on_part R) (tuple_parts t))
    _ _ _ _ _ _ _ _ _ _ _ _ _ _ _ _ _ _ _ _ _ _ _ _ _)); auto;
    try (intros; cbn [tuple_parts]; constructor; [assumption|constructor]).
  - intros l _ H. cbn [tuple_parts]. apply HL in H. apply Forall_forall. intros p I.
    apply in_map_iff in I. destruct I as (e & <- & I). rewrite Forall_forall in H. exact (H e I).
  - intros l F H. cbn [tuple_parts]. apply HC in H. apply Forall_forall. intros p I.
    apply in_flat_map in I. destruct I as (e & I & J). rewrite Forall_forall in F, H.
    specialize (F e I (H e I)). rewrite Forall_forall in F. exact (F p J).
Qed.

Lemma list_from_parts_ok : forall (R : term -> Prop),
  (forall l, R (MList l) <-> Forall R l) -> (forall l, R (MListConcat l) <-> Forall R l) ->
  forall ps, Forall (on_part R) ps -> R (list_from_parts ps).
Proof.
  intros R HL HC ps F. unfold list_from_parts. apply seq_from_ok; try constructor; try apply HL; try apply HC.
  apply Forall_forall. intros p I. apply in_flat_map in I. destruct I as (q & I & J).
  rewrite Forall_forall in F. specialize (F q I). destruct q as [t|t]; cbn [on_part] in F.
  - destruct J as [<-|[]]. exact F.
  - pose proof (list_parts_ok R (fun l => proj1 (HL l)) (fun l => proj1 (HC l)) t F) as G.
    rewrite Forall_forall in G. exact (G p J).
Qed.

Lemma tuple_from_parts_ok : forall (R : term -> Prop),
  (forall l, R (MTuple l) <-> Forall R l) -> (forall l, R (MTupleConcat l) <-> Forall R l) ->
  forall ps, Forall (on_part R) ps -> R (tuple_from_parts ps).
Proof.
  intros R HL HC ps F. unfold tuple_from_parts. apply seq_from_ok; try constructor; try apply HL; try apply HC.
  apply Forall_forall. intros p I. apply in_flat_map in I. destruct I as (q & I & J).
  rewrite Forall_forall in F. specialize (F q I). destruct q as [t|t]; cbn [on_part] in F.
  - destruct J as [<-|[]]. exact F.
  - pose proof (tuple_parts_ok R (fun l => proj1 (HL l)) (fun l => proj1 (HC l)) t F) as G.
    rewrite Forall_forall in G. exact (G p J).
Qed.

Lemma elem_part_on : forall (R : term -> Prop) (b : bool) t, R t -> on_part R (list_elem_part b t).
Proof. intros R b t H. unfold list_elem_part. destruct t; try exact H; destruct b; exact H. Qed.

(** Only items: the result is a plain list. *)
Lemma seq_from_items : forall mk mkc l items, seq_from mk mkc items [] (map Item l) = mk (items ++ l).
Proof.
  intros mk mkc l. induction l as [|x l IH]; intros items; cbn [seq_from map].
  - rewrite app_nil_r. reflexivity.
  - rewrite IH, <- app_assoc. reflexivity.
Qed.

Lemma list_from_items : forall l, list_from_parts (map Item l) = MList l.
Proof.
  intros l. unfold list_from_parts.
  replace (flat_map _ (map Item l)) with (map (@Item term) l).
  - apply (seq_from_items MList MListConcat l []).
  - induction l; cbn; congruence.
Qed.

(** ** Unfolding equations *)
Section Equations.
  Variable env : N -> N -> option typedef.

  Lemma subst_ext_eq : forall s e i args b, subst_ty env s (TExt e i args b) =
    match all_some (map (subst_term env s) args) with
    | None => None
    | Some args' =>
      match env e i with
      | None => None
      | Some d => match def_bound d args' with None => None | Some b => Some [TExt e i args' b] end
      end
    end.
  Proof. reflexivity. Qed.
  Lemma subst_alias_eq : forall s n b, subst_ty env s (TAlias n b) = Some [TAlias n b].
  Proof. reflexivity. Qed.
  Lemma subst_fun_eq : forall s x y, subst_ty env s (TFun x y) =
    match all_some (map (subst_ty env s) x), all_some (map (subst_ty env s) y) with
    | Some x', Some y' => Some [TFun (concat x') (concat y')]
    | _, _ => None
    end.
  Proof. reflexivity. Qed.
  Lemma subst_tvar_eq : forall s i b, subst_ty env s (TVar i b) =
    match nth_error s i with Some (MType x) => Some [x] | _ => None end.
  Proof. reflexivity. Qed.
  Lemma subst_trow_eq : forall s i b, subst_ty env s (TRow i b) = apply_rowvar s i.
  Proof. reflexivity. Qed.
  Lemma subst_sum_eq : forall s rows b, subst_ty env s (TSum rows b) =
    match all_some (map (subst_row env s) rows) with
    | None => None
    | Some rows' => Some [new_sum rows']
    end.
  Proof. reflexivity. Qed.
  Lemma subst_type_eq : forall s x, subst_term env s (MType x) =
    match subst_ty env s x with Some [y] => Some (MType y) | _ => None end.
  Proof. reflexivity. Qed.
  Lemma subst_kconst_eq : forall s x, subst_term env s (KConst x) =
    match subst_ty env s x with Some [y] => Some (KConst y) | _ => None end.
  Proof. reflexivity. Qed.
  Lemma subst_list_eq : forall s l, subst_term env s (MList l) =
    option_map (fun l' => list_from_parts (map (list_elem_part
                  match l with [] => false | e :: _ => is_type e end) l'))
               (all_some (map (subst_term env s) l)).
  Proof. reflexivity. Qed.
  Lemma subst_listc_eq : forall s l, subst_term env s (MListConcat l) =
    option_map (fun l' => list_from_parts (map Splice l')) (all_some (map (subst_term env s) l)).
  Proof. reflexivity. Qed.
  Lemma subst_tuple_eq : forall s l, subst_term env s (MTuple l) =
    option_map MTuple (all_some (map (subst_term env s) l)).
  Proof. reflexivity. Qed.
  Lemma subst_tuplec_eq : forall s l, subst_term env s (MTupleConcat l) =
    option_map (fun l' => tuple_from_parts (map Splice l')) (all_some (map (subst_term env s) l)).
  Proof. reflexivity. Qed.
  Lemma subst_mvar_eq : forall s i d, subst_term env s (MVar i d) = nth_error s i.
  Proof. reflexivity. Qed.
  Lemma subst_klist_eq : forall s x, subst_term env s (KList x) = option_map KList (subst_term env s x).
  Proof. reflexivity. Qed.
  Lemma subst_ktuple_eq : forall s x, subst_term env s (KTuple x) = option_map KList (subst_term env s x).
  Proof. reflexivity. Qed.

  Lemma valid_ext_eq : forall decls e i args b, valid_ty env decls (TExt e i args b) =
    forallb (valid_term env decls) args &&
    match env e i with
    | None => false
    | Some d =>
      check_terms args (td_params d) &&
      match def_bound d args with None => false | Some b' => beqb b' b end
    end.
  Proof. reflexivity. Qed.
  Lemma valid_fun_eq : forall decls x y, valid_ty env decls (TFun x y) =
    forallb (valid_ty env decls) x && forallb (valid_ty env decls) y.
  Proof. reflexivity. Qed.
  Lemma valid_tvar_eq : forall decls i b, valid_ty env decls (TVar i b) = check_decl decls i (KType b).
  Proof. reflexivity. Qed.
  Lemma valid_trow_eq : forall decls i b, valid_ty env decls (TRow i b) = check_decl decls i (KList (KType b)).
  Proof. reflexivity. Qed.
  Lemma valid_sum_eq : forall decls rows b, valid_ty env decls (TSum rows b) =
    forallb (forallb (valid_ty env decls)) rows.
  Proof. reflexivity. Qed.
  Lemma valid_type_eq : forall decls x, valid_term env decls (MType x) = valid_ty env decls x.
  Proof. reflexivity. Qed.
  Lemma valid_kconst_eq : forall decls x, valid_term env decls (KConst x) = valid_ty env decls x.
  Proof. reflexivity. Qed.
  Lemma valid_list_eq : forall decls l, valid_term env decls (MList l) = forallb (valid_term env decls) l.
  Proof. reflexivity. Qed.
  Lemma valid_listc_eq : forall decls l, valid_term env decls (MListConcat l) = forallb (valid_term env decls) l.
  Proof. reflexivity. Qed.
  Lemma valid_tuple_eq : forall decls l, valid_term env decls (MTuple l) = forallb (valid_term env decls) l.
  Proof. reflexivity. Qed.
  Lemma valid_tuplec_eq : forall decls l, valid_term env decls (MTupleConcat l) = forallb (valid_term env decls) l.
  Proof. reflexivity. Qed.
  Lemma valid_mvar_eq : forall decls i d, valid_term env decls (MVar i d) =
    match d with KType _ => false | _ => check_decl decls i d end.
  Proof. reflexivity. Qed.
  Lemma valid_klist_eq : forall decls x, valid_term env decls (KList x) = valid_term env decls x.
  Proof. reflexivity. Qed.
  Lemma valid_ktuple_eq : forall decls x, valid_term env decls (KTuple x) = valid_term env decls x.
  Proof. reflexivity. Qed.
End Equations.
Global Hint Rewrite subst_ext_eq subst_alias_eq subst_fun_eq subst_tvar_eq subst_trow_eq subst_sum_eq
  subst_type_eq subst_kconst_eq subst_list_eq subst_listc_eq subst_tuple_eq subst_tuplec_eq
  subst_mvar_eq subst_klist_eq subst_ktuple_eq : substs.
Global Hint Rewrite valid_ext_eq valid_fun_eq valid_tvar_eq valid_trow_eq valid_sum_eq valid_type_eq
  valid_kconst_eq valid_list_eq valid_listc_eq valid_tuple_eq valid_tuplec_eq valid_mvar_eq
  valid_klist_eq valid_ktuple_eq : valids.

(** ** What survives substitution unconditionally *)
Record closed (PT : ty -> Prop) (PM : term -> Prop) : Prop := {
  c_ext : forall e i args b, Forall PM args -> PT (TExt e i args b);
  c_alias : forall n b, PT (TAlias n b);
  c_fun : forall x y, Forall PT x -> Forall PT y -> PT (TFun x y);
  c_sum : forall rows, Forall (Forall PT) rows -> PT (new_sum rows);
  c_row : forall i d b, PM (MVar i d) -> row_bound d = Some b -> PT (TRow i b);
  c_type : forall x, PT x <-> PM (MType x);
  c_const : forall x, PT x -> PM (KConst x);
  c_list : forall l, PM (MList l) <-> Forall PM l;
  c_listc : forall l, PM (MListConcat l) <-> Forall PM l;
  c_tuple : forall l, PM (MTuple l) <-> Forall PM l;
  c_tuplec : forall l, PM (MTupleConcat l) <-> Forall PM l;
  c_klist : forall x, PM x -> PM (KList x);
  c_atom : forall t, match t with
                     | KType _ | KStatic | KNat _ | KString | KBytes | KFloat
                     | MNat _ | MString _ | MBytes _ | MFloat _ => PM t
                     | _ => True end }.

Lemma Forall_concat' : forall {A} (R : A -> Prop) ls, Forall (Forall R) ls -> Forall R (concat ls).
Proof.
  intros A R ls F. induction F; cbn; [constructor|]. apply Forall_app. auto.
Qed.

Lemma Forall2_Forall_r : forall {A B} (f : A -> option B) (R : B -> Prop) l r,
  Forall2 (fun a b => f a = Some b) l r -> (forall a b, In a l -> f a = Some b -> R b) -> Forall R r.
Proof.
  intros A B f R l r F H. apply Forall_forall. intros b I.
  destruct (Forall2_In_r _ _ _ _ F I) as (a & J & E). eapply H; eassumption.
Qed.

Section Env.
  Variable env : N -> N -> option typedef.

  Lemma subst_closed : forall PT PM, closed PT PM -> forall s, Forall PM s ->
    (forall t l, subst_ty env s t = Some l -> Forall PT l) /\
    (forall t t', subst_term env s t = Some t' -> PM t').
  Proof.
    intros PT PM C s Fs.
    assert (NTH : forall i a, nth_error s i = Some a -> PM a).
    { intros i a E. rewrite Forall_forall in Fs. apply Fs. eapply nth_error_In. exact E. }
    apply both_ind.
    - intros e i args b F l. autorewrite with substs.
      destruct (all_some (map (subst_term env s) args)) as [args'|] eqn:E; [|discriminate].
      destruct (env e i) as [d|]; [|discriminate]. destruct (def_bound d args') as [b'|]; [|discriminate].
      intros X. injection X as <-. constructor; [|constructor]. apply (c_ext _ _ C).
      apply all_some_Forall2 in E. eapply Forall2_Forall_r; [exact E|].
      intros a a' I Ea. rewrite Forall_forall in F. eapply F; eassumption.
    - intros n b l X. cbn in X. injection X as <-. constructor; [|constructor]. apply (c_alias _ _ C).
    - intros x y Fx Fy l. autorewrite with substs.
      destruct (all_some (map (subst_ty env s) x)) as [x'|] eqn:E1; [|discriminate].
      destruct (all_some (map (subst_ty env s) y)) as [y'|] eqn:E2; [|discriminate].
      intros X. injection X as <-. constructor; [|constructor].
      apply all_some_Forall2 in E1, E2. rewrite Forall_forall in Fx, Fy.
      apply (c_fun _ _ C); apply Forall_concat'.
      + eapply Forall2_Forall_r; [exact E1|]. intros a a' I Ea. eapply Fx; eassumption.
      + eapply Forall2_Forall_r; [exact E2|]. intros a a' I Ea. eapply Fy; eassumption.
    - intros i b l. autorewrite with substs. destruct (nth_error s i) as [[]|] eqn:E; try discriminate.
      intros X. injection X as <-. constructor; [|constructor]. apply (c_type _ _ C). eapply NTH; eassumption.
    - intros i b l. autorewrite with substs. unfold apply_rowvar.
      destruct (nth_error s i) as [[]|] eqn:E; try discriminate.
      + destruct t; try discriminate. intros X. injection X as <-. constructor; [|constructor].
        apply (c_type _ _ C). eapply NTH; eassumption.
      + intros X. apply all_some_Forall2 in X. apply NTH in E. apply (c_list _ _ C) in E.
        eapply Forall2_Forall_r; [exact X|]. intros a b' I Ea. rewrite Forall_forall in E. specialize (E a I).
        destruct a; cbn [rowvar_elem] in Ea; try discriminate.
        * injection Ea as <-. apply (c_type _ _ C). exact E.
        * destruct (row_bound a) eqn:Eb; [|discriminate]. injection Ea as <-.
          eapply (c_row _ _ C); eassumption.
    - intros rows b F l. autorewrite with substs.
      destruct (all_some _) as [rows'|] eqn:E; [|discriminate]. intros X. injection X as <-.
      constructor; [|constructor]. apply (c_sum _ _ C). apply all_some_Forall2 in E.
      eapply Forall2_Forall_r; [exact E|]. intros row row' I Er.
      unfold subst_row in Er.
      destruct (all_some (map (subst_ty env s) row)) as [r|] eqn:E2; [|discriminate].
      cbn [option_map] in Er. injection Er as <-. apply all_some_Forall2 in E2. apply Forall_concat'.
      eapply Forall2_Forall_r; [exact E2|]. intros a a' J Ea. rewrite Forall_forall in F.
      specialize (F row I). rewrite Forall_forall in F. eapply F; eassumption.
    - intros b t' X. injection X as <-. exact (c_atom _ _ C (KType b)).
    - intros t' X. injection X as <-. exact (c_atom _ _ C KStatic).
    - intros b t' X. injection X as <-. exact (c_atom _ _ C (KNat b)).
    - intros t' X. injection X as <-. exact (c_atom _ _ C KString).
    - intros t' X. injection X as <-. exact (c_atom _ _ C KBytes).
    - intros t' X. injection X as <-. exact (c_atom _ _ C KFloat).
    - intros x IH t'. autorewrite with substs. destruct (subst_term env s x) eqn:E; [|discriminate].
      intros X. injection X as <-. apply (c_klist _ _ C). auto.
    - intros x IH t'. autorewrite with substs. destruct (subst_term env s x) eqn:E; [|discriminate].
      intros X. injection X as <-. apply (c_klist _ _ C). auto.
    - intros x IH t'. autorewrite with substs. destruct (subst_ty env s x) as [[|y []]|] eqn:E; try discriminate.
      intros X. injection X as <-. apply (c_const _ _ C). specialize (IH _ eq_refl). inversion IH. assumption.
    - intros x IH t'. autorewrite with substs. destruct (subst_ty env s x) as [[|y []]|] eqn:E; try discriminate.
      intros X. injection X as <-. apply (c_type _ _ C). specialize (IH _ eq_refl). inversion IH. assumption.
    - intros b t' X. injection X as <-. exact (c_atom _ _ C (MNat b)).
    - intros b t' X. injection X as <-. exact (c_atom _ _ C (MString b)).
    - intros b t' X. injection X as <-. exact (c_atom _ _ C (MBytes b)).
    - intros b t' X. injection X as <-. exact (c_atom _ _ C (MFloat b)).
    - intros l F t'. autorewrite with substs. destruct (all_some _) as [l'|] eqn:E; [|discriminate].
      cbn [option_map]. intros X. injection X as <-. apply all_some_Forall2 in E.
      apply (list_from_parts_ok PM (c_list _ _ C) (c_listc _ _ C)).
      apply Forall_forall. intros p I. apply in_map_iff in I. destruct I as (a' & <- & I).
      destruct (Forall2_In_r _ _ _ _ E I) as (a & J & Ea). apply elem_part_on.
      rewrite Forall_forall in F. eapply F; eassumption.
    - intros l F t'. autorewrite with substs. destruct (all_some _) as [l'|] eqn:E; [|discriminate].
      cbn [option_map]. intros X. injection X as <-. apply all_some_Forall2 in E.
      apply (list_from_parts_ok PM (c_list _ _ C) (c_listc _ _ C)).
      apply Forall_forall. intros p I. apply in_map_iff in I. destruct I as (a' & <- & I).
      destruct (Forall2_In_r _ _ _ _ E I) as (a & J & Ea). cbn [on_part].
      rewrite Forall_forall in F. eapply F; eassumption.
    - intros l F t'. autorewrite with substs. destruct (all_some _) as [l'|] eqn:E; [|discriminate].
      cbn [option_map]. intros X. injection X as <-. apply all_some_Forall2 in E.
      apply (c_tuple _ _ C). eapply Forall2_Forall_r; [exact E|]. intros a a' I Ea.
      rewrite Forall_forall in F. eapply F; eassumption.
    - intros l F t'. autorewrite with substs. destruct (all_some _) as [l'|] eqn:E; [|discriminate].
      cbn [option_map]. intros X. injection X as <-. apply all_some_Forall2 in E.
      apply (tuple_from_parts_ok PM (c_tuple _ _ C) (c_tuplec _ _ C)).
      apply Forall_forall. intros p I. apply in_map_iff in I. destruct I as (a' & <- & I).
      destruct (Forall2_In_r _ _ _ _ E I) as (a & J & Ea). cbn [on_part].
      rewrite Forall_forall in F. eapply F; eassumption.
    - intros i d _ t' X. autorewrite with substs in X. eapply NTH. exact X.
  Qed.
End Env.

Lemma new_sum_bound : forall rows,
  lub (new_sum rows) = Copyable <-> forall row t, In row rows -> In t row -> lub t = Copyable.
Proof.
  intros rows. cbn [new_sum lub]. unfold lub_of. rewrite lub_list_Copyable. split.
  - intros H row t I J. apply H. apply in_map. apply in_concat. eauto.
  - intros H b I. apply in_map_iff in I. destruct I as (t & <- & I). apply in_concat in I.
    destruct I as (row & I & J). eauto.
Qed.

Lemma forallb_Forall_iff : forall {A} (f : A -> bool) l, forallb f l = true <-> Forall (fun a => f a = true) l.
Proof. intros. rewrite forallb_forall, Forall_forall. tauto. Qed.

Lemma forallb2_Forall : forall {A} (f : A -> bool) ls,
  forallb (forallb f) ls = true <-> Forall (Forall (fun a => f a = true)) ls.
Proof.
  intros A f ls. rewrite forallb_Forall_iff. rewrite !Forall_forall.
  split; intros H row I; specialize (H row I); apply forallb_Forall_iff; exact H.
Qed.

Lemma scoped_closed : forall n, closed (fun t => scoped_ty n t = true) (fun t => scoped_term n t = true).
Proof.
  intros n. constructor; intros; cbn [scoped_ty scoped_term new_sum] in *;
    rewrite ?andb_true_iff, ?forallb2_Forall, ?forallb_Forall_iff; try tauto; auto.
  destruct t; auto.
Qed.

Lemma norow_closed : closed (fun t => norow_ty t = true) (fun t => norow_term t = true).
Proof.
  constructor; intros; cbn [norow_ty norow_term new_sum] in *;
    rewrite ?andb_true_iff, ?forallb2_Forall, ?forallb_Forall_iff; try tauto; auto.
  - rewrite H0 in H. discriminate.
  - destruct t; auto.
Qed.

Lemma cached_closed : closed cached_ty cached_term.
Proof.
  constructor; intros; try (cbn [cached_ty cached_term] in *; rewrite ?fold_and; tauto).
  - unfold new_sum. cbn [cached_ty]. split.
    + apply fold_and. eapply Forall_impl; [|exact H]. intros row F. apply fold_and. exact F.
    + apply new_sum_bound.
  - destruct t; cbn; auto.
Qed.

(** ** Bounds under substitution *)
Lemma def_lub_Copyable : forall args is acc,
  def_lub args acc is = Some Copyable <->
  acc = Copyable /\ forall i, In i is -> exists x, nth_error args i = Some (MType x) /\ lub x = Copyable.
Proof.
  intros args is. induction is as [|i is IH]; intros acc; cbn [def_lub].
  - split; [intros E; injection E as ->; split; [reflexivity|intros i []]|intros [-> _]; reflexivity].
  - split.
    + intros E. destruct (nth_error args i) as [[]|] eqn:En; try discriminate.
      destruct acc; cbn [beqb orb] in E; [|discriminate].
      destruct (lub t) eqn:El; cbn [beqb] in E; [|discriminate].
      cbn [bunion bcontains] in E. apply IH in E. destruct E as [_ E]. split; [reflexivity|].
      intros j [<-|I]; [|apply E; exact I]. eauto.
    + intros [-> H]. destruct (H i (or_introl eq_refl)) as (x & -> & E). rewrite E. cbn [beqb orb bunion bcontains].
      apply IH. split; [reflexivity|]. intros j I. apply H. right. exact I.
Qed.

Lemma def_bound_mono : forall d args args' b b',
  (forall i x, nth_error args i = Some (MType x) ->
     forall a, nth_error args' i = Some a -> exists y, a = MType y /\ bcontains (lub x) (lub y) = true) ->
  length args = length args' ->
  def_bound d args = Some b -> def_bound d args' = Some b' -> bcontains b b' = true.
Proof.
  intros d args args' b b' H L. unfold def_bound. destruct (td_bound d) as [bd|[|i is]].
  - intros E E'. injection E as <-. injection E' as <-. apply bcontains_refl.
  - intros E E'. injection E as <-. reflexivity.
  - intros E E'. destruct b; [|reflexivity]. apply bcontains_Copyable.
    apply def_lub_Copyable in E. destruct E as [_ E].
    assert (X : def_lub args' Copyable (i :: is) = Some Copyable).
    { apply def_lub_Copyable. split; [reflexivity|]. intros j J.
      destruct (E j J) as (x & En & El).
      assert (LT : j < length args') by (rewrite <- L; apply nth_error_Some; congruence).
      destruct (nth_error args' j) as [a|] eqn:Ea; [|apply nth_error_None in Ea; lia].
      destruct (H j x En a Ea) as (y & -> & C). exists y. split; [reflexivity|].
      rewrite El in C. now apply bcontains_Copyable. }
    congruence.
Qed.

Lemma check_decl_iff : forall decls i k, check_decl decls i k = true <-> nth_error decls i = Some k.
Proof.
  intros decls i k. unfold check_decl. destruct (nth_error decls i) as [a|]; [|split; discriminate].
  rewrite term_eqb_eq. split; congruence.
Qed.

Lemma check_terms_iff : forall ts ks,
  check_terms ts ks = true <-> Forall2 (fun t k => check_term t k = true) ts ks.
Proof. intros. apply list_eqb_Forall2. Qed.

Lemma check_type_arg : forall a b, check_term a (KType b) = true ->
  (exists x, a = MType x /\ bcontains b (lub x) = true) \/
  (exists i b', a = MVar i (KType b') /\ bcontains b b' = true).
Proof.
  intros a b H. destruct a; cbn [check_term] in H; try discriminate.
  - left. eauto.
  - right. destruct a; cbn [is_supertype] in H; try discriminate. eauto.
Qed.

Lemma row_bound_iff : forall d b, row_bound d = Some b <-> d = KList (KType b).
Proof.
  intros d b. split; [|intros ->; reflexivity].
  destruct d; cbn; try discriminate. destruct d; cbn; try discriminate. congruence.
Qed.

(** Elements of a list accepted as a row of types. *)
Lemma check_row_elem : forall l b e, check_term (MList l) (KList (KType b)) = true -> In e l ->
  (exists x, e = MType x /\ bcontains b (lub x) = true) \/
  (exists i b', e = MVar i (KList (KType b')) /\ bcontains b b' = true) \/
  (exists i b', e = MVar i (KType b') /\ bcontains b b' = true).
Proof.
  intros l b e H I. cbn [check_term] in H. rewrite forallb_forall in H. specialize (H e I).
  destruct e; try (apply check_type_arg in H; destruct H as [H|H]; auto; fail).
  destruct (row_bound e) eqn:E.
  - apply row_bound_iff in E. subst. apply orb_true_iff in H. destruct H as [H|H]; [eauto 7|].
    cbn in H. discriminate.
  - apply check_type_arg in H. destruct H as [H|H]; auto.
Qed.

Section Bounds.
  Variable env : N -> N -> option typedef.
  Variables (decls args : list term).
  Hypothesis fit : check_terms args decls = true.

  Lemma fit_nth : forall i k a, nth_error decls i = Some k -> nth_error args i = Some a -> check_term a k = true.
  Proof.
    intros i k a Ek Ea. pose proof (proj1 (check_terms_iff _ _) fit) as F.
    destruct (Forall2_nth_l _ _ _ _ _ F Ea) as (k' & E' & C). congruence.
  Qed.

  Lemma subst_bound_both :
    (forall t, valid_ty env decls t = true -> cached_ty t -> forall l, subst_ty env args t = Some l ->
       forall r, In r l -> bcontains (lub t) (lub r) = true) /\
    (forall t, valid_term env decls t = true -> cached_term t -> forall t', subst_term env args t = Some t' ->
       forall x, t = MType x -> exists y, t' = MType y /\ bcontains (lub x) (lub y) = true).
  Proof.
    apply both_ind; try (intros; discriminate).
    - intros e i ar b F V Ca l. autorewrite with substs. autorewrite with valids in V.
      destruct (all_some (map (subst_term env args) ar)) as [ar'|] eqn:E; [|discriminate].
      destruct (env e i) as [d|]; [|discriminate].
      destruct (def_bound d ar') as [b'|] eqn:Eb; [|discriminate].
      intros X r I. injection X as <-. destruct I as [<-|[]]. cbn [lub].
      apply andb_true_iff in V. destruct V as [V1 V2]. apply andb_true_iff in V2. destruct V2 as [_ V2].
      destruct (def_bound d ar) as [b0|] eqn:Eb0; [|discriminate]. apply beqb_eq in V2. subst b0.
      apply all_some_Forall2 in E. cbn [cached_ty] in Ca. rewrite fold_and in Ca.
      eapply (def_bound_mono d ar ar'); [| |exact Eb0|exact Eb].
      + intros j x En a Ea. destruct (Forall2_nth_l _ _ _ _ _ E En) as (a' & Ea' & Es).
        rewrite Ea in Ea'. injection Ea' as <-. apply nth_error_In in En.
        rewrite Forall_forall in F, Ca. rewrite forallb_forall in V1.
        exact (F _ En (V1 _ En) (Ca _ En) _ Es _ eq_refl).
      + eapply Forall2_len. exact E.
    - intros n b V _ l X r I. injection X as <-. destruct I as [<-|[]]. apply bcontains_refl.
    - intros x y _ _ V _ l. autorewrite with substs.
      destruct (all_some (map (subst_ty env args) x)); [|discriminate].
      destruct (all_some (map (subst_ty env args) y)); [|discriminate].
      intros X r I. injection X as <-. destruct I as [<-|[]]. reflexivity.
    - intros i b V _ l. autorewrite with substs. autorewrite with valids in V. apply check_decl_iff in V.
      destruct (nth_error args i) as [[]|] eqn:E; try discriminate.
      intros X r I. injection X as <-. destruct I as [<-|[]]. cbn [lub].
      pose proof (fit_nth _ _ _ V E) as H. exact H.
    - intros i b V _ l. autorewrite with substs. autorewrite with valids in V. apply check_decl_iff in V.
      unfold apply_rowvar. destruct (nth_error args i) as [[]|] eqn:E; try discriminate.
      + pose proof (fit_nth _ _ _ V E) as H. discriminate H.
      + pose proof (fit_nth _ _ _ V E) as H. intros X r I. apply all_some_Forall2 in X.
        destruct (Forall2_In_r _ _ _ _ X I) as (a & J & Er). cbn [lub].
        destruct (check_row_elem _ _ _ H J) as [(x & -> & C)|[(j & b' & -> & C)|(j & b' & -> & C)]];
          cbn in Er; try discriminate; injection Er as <-; exact C.
    - intros rows b F V Ca l. autorewrite with substs. autorewrite with valids in V.
      destruct (all_some (map (subst_row env args) rows)) as [rows'|] eqn:E; [|discriminate].
      intros X r I. injection X as <-. destruct I as [<-|[]]. cbn [lub].
      destruct b; [|reflexivity]. apply bcontains_Copyable. apply new_sum_bound.
      intros row' t' I' J'. apply all_some_Forall2 in E.
      destruct (Forall2_In_r _ _ _ _ E I') as (row & I & Er). unfold subst_row in Er.
      destruct (all_some (map (subst_ty env args) row)) as [r|] eqn:E2; [|discriminate].
      injection Er as <-. apply in_concat in J'. destruct J' as (ts & J1 & J2).
      apply all_some_Forall2 in E2. destruct (Forall2_In_r _ _ _ _ E2 J1) as (t & J & Et).
      cbn [cached_ty] in Ca. destruct Ca as [Ca Cb]. rewrite fold_and in Ca.
      rewrite Forall_forall in F, Ca. specialize (F row I). specialize (Ca row I). rewrite fold_and in Ca.
      rewrite forallb_forall in V. specialize (V row I). rewrite forallb_forall in V.
      rewrite Forall_forall in F, Ca.
      pose proof (F t J (V t J) (Ca t J) ts Et t' J2) as B.
      rewrite (proj1 Cb eq_refl row t I J) in B. now apply bcontains_Copyable.
    - intros x IH V Ca t'. autorewrite with substs.
      destruct (subst_ty env args x) as [[|y []]|] eqn:E; try discriminate.
      intros X z Ez. injection X as <-. injection Ez as <-. exists y. split; [reflexivity|].
      autorewrite with valids in V. cbn [cached_term] in Ca. eapply IH; eauto. cbn. auto.
  Qed.
End Bounds.

Lemma copyable_iff : forall t, cached_ty t -> (lub t = Copyable <-> copyable_ty t).
Proof.
  refine (proj1 (both_ind (fun t => cached_ty t -> (lub t = Copyable <-> copyable_ty t)) (fun _ => True)
    _ _ _ _ _ _ _ _ _ _ _ _ _ _ _ _ _ _ _ _ _ _ _ _ _)); auto; cbn [lub].
  - intros e i args b _ _. split; [intros ->; constructor|intros H; inversion H; reflexivity].
  - intros n b _. split; [intros ->; constructor|intros H; inversion H; reflexivity].
  - intros x y _ _ _. split; [constructor|reflexivity].
  - intros n b _. split; [intros ->; constructor|intros H; inversion H; reflexivity].
  - intros n b _. split; [intros ->; constructor|intros H; inversion H; reflexivity].
  - intros rows b F Ca. cbn [cached_ty] in Ca. destruct Ca as [Ca Cb]. rewrite fold_and in Ca.
    rewrite Cb. rewrite Forall_forall in F, Ca.
    assert (X : forall row t, In row rows -> In t row -> (lub t = Copyable <-> copyable_ty t)).
    { intros row t I J. specialize (F row I). specialize (Ca row I). rewrite fold_and in Ca.
      rewrite Forall_forall in F, Ca. auto. }
    split.
    + intros H. constructor. intros row t I J. apply (X row t I J). eauto.
    + intros H. inversion H as [| | | | |? ? H2]; subst. intros row t I J. apply (X row t I J). eauto.
Qed.
