(** The abstract dataflow values: C11 (join), C12 (meet), C13 (meaning). *)
From Coq Require Import List Bool NArith Arith Lia Sorted.
From Verif Require Import BMap PValModel PValSpec PValProofs.
Import ListNotations.

Section Props.
  Context {V N A : Type}.
  Context (veq : forall a b : V, {a = b} + {a <> b}) (neq : forall a b : N, {a = b} + {a <> b})
          (aeq : forall a b : A, {a = b} + {a <> b}).
  Notation pv := (pv V N A).
  Notation psum := (psum V N A).
  Notation get := (bm_get N.compare).
  Notation jn := (jn veq neq).
  Notation mt := (mt veq neq).

  (** ** C11 *)
  Theorem join_is_lub (f : N -> A) (x y : pv) :
    wf x -> wf y -> args_by_node f x -> args_by_node f y ->
    let (j, changed) := join veq neq y x in
    wf j /\ args_by_node f j /\ (forall t, typed t x -> typed t y -> typed t j) /\
    is_lub x y j /\ (changed = true <-> j <> x).
  Proof.
    intros Wx Wy Ax Ay. destruct (join_facts veq neq f y x Wx Wy Ax Ay) as (W & Ab & L & Fl).
    assert (T := fun t => join_typed veq neq y x t Wx Wy). unfold PValProofs.jn in *.
    destruct (join veq neq y x) as [j c]. cbn in *. repeat (split; [assumption|]).
    destruct c; [|destruct Fl as [Fl _]; rewrite Fl by reflexivity; split; congruence].
    split; [|reflexivity]. intros _ E. apply Fl in E. discriminate.
  Qed.

  Theorem join_algebra (f : N -> A) (x y z : pv) :
    wf x -> wf y -> wf z -> args_by_node f x -> args_by_node f y -> args_by_node f z ->
    fst (join veq neq y x) = fst (join veq neq x y) /\
    fst (join veq neq z (fst (join veq neq y x))) = fst (join veq neq (fst (join veq neq z y)) x) /\
    fst (join veq neq x x) = x /\
    fst (join veq neq Bottom x) = x /\ fst (join veq neq x Bottom) = x /\
    fst (join veq neq Top x) = Top /\ fst (join veq neq x Top) = Top.
  Proof.
    intros Wx Wy Wz Ax Ay Az. change (fst (join veq neq y x)) with (jn x y). change (fst (join veq neq x y)) with (jn y x).
    change (fst (join veq neq z (jn x y))) with (jn (jn x y) z).
    change (fst (join veq neq z y)) with (jn y z). change (fst (join veq neq (jn y z) x)) with (jn x (jn y z)).
    destruct (join_facts veq neq f y x Wx Wy Ax Ay) as (W1 & A1 & (L1 & L2 & L3) & _).
    destruct (join_facts veq neq f x y Wy Wx Ay Ax) as (W2 & A2 & (M1 & M2 & M3) & _).
    destruct (join_facts veq neq f z y Wy Wz Ay Az) as (W3 & A3 & (N1 & N2 & N3) & _).
    destruct (join_facts veq neq f z (jn x y) W1 Wz A1 Az) as (W4 & A4 & (O1 & O2 & O3) & _).
    destruct (join_facts veq neq f (jn y z) x Wx W3 Ax A3) as (W5 & A5 & (P1 & P2 & P3) & _).
    destruct (join_facts veq neq f x x Wx Wx Ax Ax) as (W6 & A6 & (Q1 & Q2 & Q3) & _).
    split; [apply le_antisym; auto|].
    split.
    { apply le_antisym; auto.
      - apply O3; [assumption| |apply (le_trans _ _ _ N2 P2)].
        apply L3; [assumption|assumption|apply (le_trans _ _ _ N1 P2)].
      - apply P3; [assumption|apply (le_trans _ _ _ L1 O1)|].
        apply N3; [assumption|apply (le_trans _ _ _ L2 O1)|assumption]. }
    split; [apply le_antisym; auto; apply Q3; auto; apply le_refl|].
    repeat split; destruct x; reflexivity.
  Qed.

  (** The comparison offered by the API ([partial_cmp]) extends the information order ... *)
  Theorem comparison_extends_information_order (x y : pv) : wf x -> wf y -> le x y ->
    (pv_cmp veq neq aeq x y = Some Eq /\ x = y) \/ pv_cmp veq neq aeq x y = Some Lt.
  Proof. apply le_cmp. Qed.
  (** ... so both arguments compare at most the join; see below for leastness. *)
  Theorem join_above_in_comparison (f : N -> A) (x y : pv) :
    wf x -> wf y -> args_by_node f x -> args_by_node f y ->
    let j := fst (join veq neq y x) in
    pv_cmp veq neq aeq x j <> Some Gt /\ pv_cmp veq neq aeq y j <> Some Gt.
  Proof.
    intros Wx Wy Ax Ay. destruct (join_facts veq neq f y x Wx Wy Ax Ay) as (W & _ & (L1 & L2 & _) & _).
    split; [destruct (le_cmp veq neq aeq x _ Wx W L1) as [[E _]|E]|destruct (le_cmp veq neq aeq y _ Wy W L2) as [[E _]|E]];
      unfold PValProofs.jn in E; rewrite E; discriminate.
  Qed.

  (** ** C12 *)
  (** Everything but the converse for the flag, which is refuted below. *)
  Theorem meet_is_glb_partial (f : N -> A) (t : ty) (x y : pv) :
    wf x -> wf y -> args_by_node f x -> args_by_node f y -> typed t x -> typed t y ->
    let (g, changed) := meet veq neq y x in
    wf g /\ args_by_node f g /\ typed t g /\ is_glb x y g /\ (g <> x -> changed = true).
  Proof.
    intros Wx Wy Ax Ay Tx Ty. destruct (meet_facts veq neq f y x t Wx Wy Ax Ay Tx Ty) as (W & Ab & T & G & Fl).
    unfold PValProofs.mt in *.
    destruct (meet veq neq y x) as [g c]. cbn in *. repeat (split; [assumption|]).
    intros H. destruct c; [reflexivity|]. exfalso; auto.
  Qed.

  Theorem meet_algebra (f : N -> A) (t : ty) (x y z : pv) :
    wf x -> wf y -> wf z -> args_by_node f x -> args_by_node f y -> args_by_node f z ->
    typed t x -> typed t y -> typed t z ->
    fst (meet veq neq y x) = fst (meet veq neq x y) /\
    fst (meet veq neq z (fst (meet veq neq y x))) = fst (meet veq neq (fst (meet veq neq z y)) x) /\
    fst (meet veq neq x x) = x /\
    (* absorption links the two operations *)
    fst (meet veq neq (fst (join veq neq y x)) x) = x /\
    fst (join veq neq (fst (meet veq neq y x)) x) = x /\
    fst (meet veq neq Top x) = x /\ fst (meet veq neq x Top) = x /\
    fst (meet veq neq Bottom x) = Bottom /\ fst (meet veq neq x Bottom) = Bottom.
  Proof.
    intros Wx Wy Wz Ax Ay Az Tx Ty Tz. change (fst (meet veq neq y x)) with (mt x y). change (fst (meet veq neq x y)) with (mt y x).
    change (fst (meet veq neq z (mt x y))) with (mt (mt x y) z).
    change (fst (meet veq neq z y)) with (mt y z). change (fst (meet veq neq (mt y z) x)) with (mt x (mt y z)).
    change (fst (join veq neq y x)) with (jn x y). change (fst (meet veq neq (jn x y) x)) with (mt x (jn x y)).
    change (fst (join veq neq (mt x y) x)) with (jn x (mt x y)).
    destruct (meet_facts veq neq f y x t Wx Wy Ax Ay Tx Ty) as (W1 & A1 & T1 & (L1 & L2 & L3) & _).
    destruct (meet_facts veq neq f x y t Wy Wx Ay Ax Ty Tx) as (W2 & A2 & T2 & (M1 & M2 & M3) & _).
    destruct (meet_facts veq neq f z y t Wy Wz Ay Az Ty Tz) as (W3 & A3 & T3 & (N1 & N2 & N3) & _).
    destruct (meet_facts veq neq f z (mt x y) t W1 Wz A1 Az T1 Tz) as (W4 & A4 & T4 & (O1 & O2 & O3) & _).
    destruct (meet_facts veq neq f (mt y z) x t Wx W3 Ax A3 Tx T3) as (W5 & A5 & T5 & (P1 & P2 & P3) & _).
    destruct (meet_facts veq neq f x x t Wx Wx Ax Ax Tx Tx) as (W6 & A6 & T6 & (Q1 & Q2 & Q3) & _).
    destruct (join_facts veq neq f y x Wx Wy Ax Ay) as (W7 & A7 & (R1 & R2 & R3) & _).
    pose proof (join_typed veq neq y x t Wx Wy Tx Ty) as T7.
    destruct (meet_facts veq neq f (jn x y) x t Wx W7 Ax A7 Tx T7) as (W8 & A8 & T8 & (U1 & U2 & U3) & _).
    destruct (join_facts veq neq f (mt x y) x Wx W1 Ax A1) as (W9 & A9 & (X1 & X2 & X3) & _).
    split; [apply le_antisym; auto|].
    split.
    { apply le_antisym; auto.
      - apply P3; [assumption|apply (le_trans _ _ _ O1 L1)|]. apply N3; [assumption|apply (le_trans _ _ _ O1 L2)|assumption].
      - apply O3; [assumption| |apply (le_trans _ _ _ P2 N2)]. apply L3; [assumption|assumption|apply (le_trans _ _ _ P2 N1)]. }
    split; [apply le_antisym; auto; apply Q3; auto; apply le_refl|].
    split; [apply le_antisym; auto; apply U3; auto; apply le_refl|].
    split; [apply le_antisym; auto; apply X3; auto; apply le_refl|].
    repeat split; destruct x; reflexivity.
  Qed.

  (** Rows: joined and met position by position; only a length mismatch stops it. *)
  Theorem row_join_pointwise (f : N -> A) (self other : list pv) :
    (forall x, In x self -> wf x /\ args_by_node f x) -> (forall y, In y other -> wf y /\ args_by_node f y) ->
    match row_join veq neq other self with
    | Some (r, changed) =>
        length self = length other /\
        (forall i x y, nth_error self i = Some x -> nth_error other i = Some y ->
           exists j, nth_error r i = Some j /\ is_lub x y j) /\
        length r = length self /\ (changed = true <-> r <> self)
    | None => length self <> length other
    end.
  Proof.
    unfold row_join. revert other. induction self as [|a self IH]; intros [|b other] Hs Ho; cbn; try discriminate.
    - split; [reflexivity|]. split; [intros [|i]; discriminate|]. split; [reflexivity|]. split; congruence.
    - specialize (IH other (fun x H => Hs x (or_intror H)) (fun y H => Ho y (or_intror H))).
      destruct (row_op _ other self) as [[r c]|].
      + destruct IH as (HL & Hn & Hr & Hc).
        destruct (Hs a (or_introl eq_refl)) as [Wa Aa]. destruct (Ho b (or_introl eq_refl)) as [Wb Ab].
        pose proof (join_is_lub f a b Wa Wb Aa Ab) as J. destruct (join veq neq b a) as [e c'].
        destruct J as (_ & _ & _ & HJ & Hc').
        split; [congruence|]. split; [|split; [cbn; congruence|]].
        * intros [|i] x y; cbn; [intros [= <-] [= <-]; eauto|apply Hn].
        * rewrite orb_true_iff, Hc, Hc'. split; [intros [H|H]; congruence|].
          intros H. destruct c'; [left; apply Hc'; reflexivity|]. destruct c; [right; apply Hc; reflexivity|].
          exfalso. assert (~ e <> a) as E1 by (intros E; apply Hc' in E; discriminate).
          assert (~ r <> self) as E2 by (intros E; apply Hc in E; discriminate).
          apply E1. intros ->. apply E2. intros ->. congruence.
      + cbn. congruence.
  Qed.

  (** ** C13 *)
  (** The information order only adds described values; a value is described exactly when
      the abstract value is above the singleton. *)
  Theorem order_is_sound (x y : pv) c : le x y -> describes x c -> describes y c.
  Proof. rewrite !describes_exactly. intros L H. eapply le_trans; eassumption. Qed.

  Theorem join_keeps_described (f : N -> A) (x y : pv) c :
    wf x -> wf y -> args_by_node f x -> args_by_node f y ->
    describes x c \/ describes y c -> describes (fst (join veq neq y x)) c.
  Proof.
    intros Wx Wy Ax Ay H. destruct (join_facts veq neq f y x Wx Wy Ax Ay) as (_ & _ & (L1 & L2 & _) & _).
    destruct H as [H|H]; (eapply order_is_sound; [|exact H]; assumption).
  Qed.

  Theorem meet_describes_intersection (f : N -> A) (t : ty) (x y : pv) c :
    wf x -> wf y -> args_by_node f x -> args_by_node f y -> typed t x -> typed t y ->
    (describes (fst (meet veq neq y x)) c <-> describes x c /\ describes y c).
  Proof.
    intros Wx Wy Ax Ay Tx Ty. destruct (meet_facts veq neq f y x t Wx Wy Ax Ay Tx Ty) as (_ & _ & _ & (L1 & L2 & L3) & _).
    split.
    - intros H. split; (eapply order_is_sound; [|exact H]; assumption).
    - rewrite !describes_exactly. intros [H1 H2]. apply L3; [apply exactly_wf|assumption|assumption].
  Qed.

  Lemma contains_bottom_cases (x : pv) : (contains_bottom x = true -> forall c, ~ describes x c) /\
                (contains_bottom x = false -> exists c, describes x c).
  Proof.
    induction x as [| |v|n a|m IH] using pv_ind'; cbn.
    - split; [intros _ c H; inversion H|discriminate].
    - split; [discriminate|]. intros _. exists (CSum 0%N []). constructor.
    - split; [discriminate|]. intros _. eexists; constructor.
    - split; [discriminate|]. intros _. eexists; constructor.
    - set (any := fix any (r : list pv) : bool := match r with [] => false | v :: r' => contains_bottom v || any r' end).
      assert (Hany : forall k r, In (k, r) m -> (any r = true -> forall cs, ~ Forall2 describes r cs) /\
                                                (any r = false -> exists cs, Forall2 describes r cs)).
      { intros k r Hin. specialize (IH k r). assert (IH' : forall v, In v r -> _) by (intros v Hv; exact (IH v Hin Hv)).
        clear - IH'. induction r as [|v r IHr]; cbn.
        - split; [discriminate|]. intros _. exists []. constructor.
        - destruct (IH' v (or_introl eq_refl)) as [V1 V2].
          destruct IHr as [R1 R2]; [intros; apply IH'; cbn; auto|]. split.
          + rewrite orb_true_iff. intros [E|E] cs H; inversion H; subst; [eapply V1|eapply R1]; eassumption.
          + rewrite orb_false_iff. intros [E1 E2]. destruct (V2 E1) as [c Hc]. destruct (R2 E2) as [cs Hcs].
            exists (c :: cs). constructor; assumption. }
      clear IH. split.
      + intros H c Hc. inversion Hc as [| | |m' k r cs Hin HF]; subst.
        revert H Hin Hany. clear Hc. induction m as [|[k' r'] m IHm]; [intros _ []|]. intros H [[= -> ->]|Hin] Hany;
          apply andb_true_iff in H as [E1 E2].
        * eapply (proj1 (Hany k r (or_introl eq_refl))); eassumption.
        * apply (IHm E2 Hin). intros; apply (Hany k0); cbn; auto.
      + intros H. enough (exists k r, In (k, r) m /\ any r = false) as (k & r & Hin & E).
        { destruct (proj2 (Hany k r Hin) E) as [cs Hcs]. exists (CSum k cs). econstructor; eassumption. }
        clear Hany. induction m as [|[k r] m IHm]; [discriminate|]. apply andb_false_iff in H as [E|E].
        * exists k, r. cbn. auto.
        * destruct (IHm E) as (k' & r' & Hin & E'). exists k', r'. cbn. auto.
  Qed.

  (** A value "contains bottom" exactly when it describes nothing. *)
  Theorem contains_bottom_iff_empty (x : pv) : contains_bottom x = true <-> forall c, ~ describes x c.
  Proof.
    destruct (contains_bottom_cases x) as [H1 H2]. split; [assumption|]. intros H. destruct (contains_bottom x); [reflexivity|].
    destruct (H2 eq_refl) as [c Hc]. destruct (H c Hc).
  Qed.

  (** Reading out variant [k]: exactly the described payloads of that variant. *)
  Theorem variant_values_exact (x : pv) k len : wf x ->
    match variant_values x k len with
    | inr (Some vs) => length vs = len /\ forall cs, length cs = len ->
                       (describes x (CSum k cs) <-> Forall2 describes vs cs)
    | inr None => forall cs, ~ describes x (CSum k cs)
    | inl _ => exists m r, x = PSum m /\ In (k, r) m /\ length r <> len
    end.
  Proof.
    intros W. destruct x as [|n a|v|m|]; cbn.
    - intros cs H; inversion H.
    - intros cs H; inversion H.
    - intros cs H; inversion H.
    - apply wf_inv in W as (_ & S & _). destruct (get k m) as [r|] eqn:G.
      + destruct (Nat.eqb_spec (length r) len) as [E|E].
        * split; [assumption|]. intros cs HL. split.
          -- intros H. inversion H as [| | |m' k' r' cs' Hin HF]; subst. apply (get_In _ _ _ S) in Hin.
             rewrite G in Hin. injection Hin as <-. assumption.
          -- intros H. econstructor; [|exact H]. apply (get_In _ _ _ S). assumption.
        * exists m, r. split; [reflexivity|]. split; [apply (get_In _ _ _ S); assumption|assumption].
      + intros cs H. inversion H as [| | |m' k' r' cs' Hin HF]; subst. apply (get_In _ _ _ S) in Hin. congruence.
    - split; [apply repeat_length|]. intros cs HL. split; [|intros _; constructor]. intros _. rewrite <- HL. clear.
      induction cs; cbn; constructor; [constructor|assumption].
  Qed.

  Theorem supports_tag_exact (x : pv) k len : wf x ->
    (forall cs, describes x (CSum k cs) -> supports_tag x k = true) /\
    (supports_tag x k = true <-> variant_values x k len <> inr None) /\
    (supports_tag x k = true -> (forall m r v, x = PSum m -> In (k, r) m -> In v r -> contains_bottom v = false) ->
     exists cs, describes x (CSum k cs)).
  Proof.
    intros W. destruct x as [|n a|v|m|]; cbn.
    1-3: split; [intros cs H; inversion H|]; split; [split; congruence|discriminate].
    - apply wf_inv in W as (_ & S & _). destruct (get k m) as [r|] eqn:G.
      + split; [reflexivity|]. split; [destruct (length r =? len); split; (reflexivity || discriminate)|].
        intros _ H. apply (get_In _ _ _ S) in G. specialize (H m r). assert (H' : forall v, In v r -> exists c, describes v c).
        { intros v Hv. apply contains_bottom_cases. exact (H v eq_refl G Hv). }
        enough (exists cs, Forall2 describes r cs) as [cs Hcs] by (exists cs; econstructor; eassumption).
        clear - H'. induction r as [|v r IHr]; [exists []; constructor|].
        destruct (H' v (or_introl eq_refl)) as [c Hc]. destruct IHr as [cs Hcs]; [intros; apply H'; cbn; auto|].
        exists (c :: cs). constructor; assumption.
      + split; [|split; [split; congruence|discriminate]].
        intros cs H. inversion H as [| | |m' k' r' cs' Hin HF]; subst. apply (get_In _ _ _ S) in Hin. congruence.
    - split; [reflexivity|]. split; [split; [discriminate|reflexivity]|]. intros _ _. exists []. constructor.
  Qed.

  (** Unpacking the sum at the head of a row into variant [k] (used at branches). *)
  Theorem unpack_first_exact (x : pv) (rest : list pv) k len : wf x ->
    match unpack_first (x :: rest) k len with
    | inr (Some row) => forall cs ds, length cs = len ->
        (describes x (CSum k cs) /\ Forall2 describes rest ds <-> Forall2 describes row (cs ++ ds))
    | inr None => forall cs, ~ describes x (CSum k cs)
    | inl _ => exists m r, x = PSum m /\ In (k, r) m /\ length r <> len
    end.
  Proof.
    intros W. pose proof (variant_values_exact x k len W) as H. cbn.
    destruct (variant_values x k len) as [e|[vs|]]; [assumption| |assumption].
    destruct H as [HL H]. intros cs ds HC. rewrite (H cs HC). split.
    - intros [H1 H2]. apply Forall2_app; assumption.
    - intros HF. assert (HL' : length vs = length cs) by congruence. clear - HF HL'.
      revert cs HL' HF. induction vs as [|v vs IH]; intros [|c cs] HL HF; try discriminate; cbn in *; [auto|].
      inversion HF; subst. destruct (IH cs) as [HI1 HI2]; [congruence|assumption|]. split; [constructor|]; assumption.
  Qed.

  (** Conversion to a constant: succeeds only on values describing exactly one concrete value,
      and returns the constant built from that value. *)
  Section Concrete.
    Context {C : Type} (from_value : V -> option C) (from_func : N -> A -> option C)
            (from_sum : BinNums.N -> list C -> list (list vty) -> option C).

    Theorem try_into_sound (x : pv) : forall t r, try_into from_value from_func from_sum x t = Some r ->
      exists c, (forall c', describes x c' <-> c' = c) /\ builds from_value from_func from_sum t c r.
    Proof.
      induction x as [| |v|n a|m IH] using pv_ind'; intros t r; cbn; try discriminate.
      - intros H. exists (CVal v). split; [|constructor; assumption]. intros c'.
        split; [intros Hd; inversion Hd; reflexivity|intros ->; constructor].
      - intros H. exists (CFun n a). split; [|constructor; assumption]. intros c'.
        split; [intros Hd; inversion Hd; reflexivity|intros ->; constructor].
      - destruct m as [|[k vs] [|]]; try discriminate. destruct t as [|rows]; [discriminate|].
        destruct (nth_error rows (N.to_nat k)) as [ts|] eqn:En; [|discriminate].
        destruct (Nat.eqb_spec (length vs) (length ts)) as [HL|]; [|discriminate].
        set (each := fix each (vs : list pv) (r0 : list vty) {struct vs} : option (list C) := _).
        destruct (each vs ts) as [rs|] eqn:Ee; [|discriminate]. intros Hs.
        assert (HI : forall v, In v vs -> forall t r, try_into from_value from_func from_sum v t = Some r ->
           exists c, (forall c', describes v c' <-> c' = c) /\ builds from_value from_func from_sum t c r)
          by (intros v Hv; exact (IH k vs v (or_introl eq_refl) Hv)).
        assert (HE : exists cs, (forall cs', Forall2 describes vs cs' <-> cs' = cs) /\ length ts = length cs /\
                       builds_row from_value from_func from_sum ts cs rs).
        { clear - HI HL Ee. revert ts rs HL Ee. induction vs as [|v vs IHv]; intros [|t ts] rs HL Ee; try discriminate.
          - injection Ee as <-. exists []. split; [|split; [reflexivity|constructor]]. intros cs'.
            split; [intros H; inversion H; reflexivity|intros ->; constructor].
          - cbn in Ee. destruct (try_into _ _ _ v t) as [c|] eqn:Et; [|discriminate].
            fold each in Ee. destruct (each vs ts) as [rs'|] eqn:Er; [|discriminate]. injection Ee as <-.
            destruct (HI v (or_introl eq_refl) t c Et) as (cc & Hc & Hb).
            destruct (IHv (fun v' Hv => HI v' (or_intror Hv)) ts rs') as (cs & Hcs & HLc & Hbs); [cbn in HL; congruence|assumption|].
            exists (cc :: cs). split; [|split; [cbn; congruence|constructor; assumption]]. intros cs'. split.
            + intros H. inversion H; subst. f_equal; [apply Hc|apply Hcs]; assumption.
            + intros ->. constructor; [apply Hc|apply Hcs]; reflexivity. }
        destruct HE as (cs & Hcs & HLc & Hbs). exists (CSum k cs). split.
        + intros c'. split.
          * intros Hd. inversion Hd as [| | |m' k' r' cs' Hin HF]; subst. destruct Hin as [[= -> ->]|[]].
            f_equal. apply Hcs. assumption.
          * intros ->. econstructor; [left; reflexivity|]. apply Hcs. reflexivity.
        + econstructor; eassumption.
    Qed.

    (** It does succeed on the abstract value of any constant that can be built at that type. *)
    Theorem try_into_complete (c : conc V N A) : forall t r,
      builds from_value from_func from_sum t c r ->
      try_into from_value from_func from_sum (exactly c) t = Some r.
    Proof.
      induction c as [v|n a|k cs IH] using conc_ind'; intros t r H; inversion H; subst; cbn; try assumption.
      match goal with E : nth_error _ _ = Some _ |- _ => rewrite E end. rewrite map_length.
      match goal with E : length _ = length _ |- _ => rewrite E end. rewrite Nat.eqb_refl.
      set (each := fix each (vs : list pv) (r0 : list vty) {struct vs} : option (list C) := _).
      enough (E : each (map exactly cs) ts = Some rs) by (rewrite E; assumption).
      match goal with B : builds_row _ _ _ _ _ _ |- _ => rename B into HB end.
      clear - HB IH. revert ts rs HB. induction cs as [|c cs IHc]; intros ts rs HB; inversion HB; subst; [reflexivity|].
      cbn. match goal with B : builds _ _ _ _ c _ |- _ => rewrite (IH c (or_introl eq_refl) _ _ B) end.
      fold each. match goal with B : builds_row _ _ _ _ cs _ |- _ => rewrite (IHc (fun c' Hc => IH c' (or_intror Hc)) _ _ B) end.
      reflexivity.
    Qed.
  End Concrete.
End Props.

(** ** Where the code departs from the claims; concrete instances over [nat]. *)
Notation E := Nat.eq_dec.
Notation pvn := (pv nat nat nat).

(** Joining is not least with respect to the code's own comparison: {0} compares above {1}, but
    the join {0,1} does not compare at or below {0}. *)
Theorem join_least_in_comparison_refuted : exists x y z : pvn,
  wf x /\ wf y /\ wf z /\
  pv_cmp E E E x z = Some Eq /\ pv_cmp E E E y z = Some Lt /\
  pv_cmp E E E (fst (join E E y x)) z = Some Gt.
Proof.
  exists (PSum [(0%N, [])]), (PSum [(1%N, [])]), (PSum [(0%N, [])]).
  assert (W : forall k : BinNums.N, wf (PSum [(k, [])] : pvn)).
  { intros k. constructor; [discriminate|repeat constructor|]. intros k' r v [[= <- <-]|[]] []. }
  split; [apply W|]. split; [apply W|]. split; [apply W|]. vm_compute. auto.
Qed.

(** Joining two loads of one function node with different type arguments keeps the left one and
    reports no change, so the result depends on the order and is not an upper bound. *)
Theorem join_commutes_with_type_args_refuted : exists x y : pvn,
  wf x /\ wf y /\ join E E y x = (x, false) /\ fst (join E E x y) <> fst (join E E y x) /\
  ~ le y (fst (join E E y x)).
Proof.
  exists (LF 5 1), (LF 5 2). repeat split; try constructor; cbn; [discriminate|]. intros H. inversion H.
Qed.

(** The flag of [meet] can be raised although nothing changed: keys only in the other value are
    "removed" too. *)
Theorem meet_changed_exact_refuted : exists (t : ty) (x y : pvn),
  wf x /\ wf y /\ typed t x /\ typed t y /\ meet E E y x = (x, true).
Proof.
  exists (TySum [[]; []]), (PSum [(0%N, [])]), (PSum [(0%N, []); (1%N, [])]).
  assert (HW : forall m : psum nat nat nat, m <> [] -> StronglySorted (fun a b => N.compare (fst a) (fst b) = Lt) m ->
            (forall k r, In (k, r) m -> r = []) -> wf (PSum m)).
  { intros m H1 H2 H3. constructor; try assumption. intros k r v Hin Hv. rewrite (H3 k r Hin) in Hv. destruct Hv. }
  split; [apply HW; [discriminate|repeat constructor|intros k r [[= <- <-]|[]]; reflexivity]|].
  split; [apply HW; [discriminate|repeat constructor|intros k r [[= <- <-]|[[= <- <-]|[]]]; reflexivity]|].
  split; [constructor; intros k r [[= <- <-]|[]]; exists []; repeat constructor|].
  split; [constructor; intros k r [[= <- <-]|[[= <- <-]|[]]]; exists []; repeat constructor|].
  reflexivity.
Qed.

(** Without a common type, the meet of sums whose rows have different lengths is Bottom even when
    they share another variant, hence not the greatest lower bound. *)
Theorem meet_untyped_glb_refuted : exists x y z : pvn,
  wf x /\ wf y /\ wf z /\ le z x /\ le z y /\ fst (meet E E y x) = Bottom /\ z <> Bottom.
Proof.
  exists (PSum [(0%N, []); (1%N, [Top])]), (PSum [(0%N, []); (1%N, [])]), (PSum [(0%N, [])]).
  assert (W : forall m : psum nat nat nat, m <> [] -> StronglySorted (fun a b => N.compare (fst a) (fst b) = Lt) m ->
            (forall k r v, In (k, r) m -> In v r -> v = Top) -> wf (PSum m)).
  { intros m H1 H2 H3. constructor; try assumption. intros k r v Hin Hv. rewrite (H3 k r v Hin Hv). constructor. }
  split; [apply W; [discriminate|repeat constructor|intros k r v [[= <- <-]|[[= <- <-]|[]]] Hv; cbn in Hv; intuition]|].
  split; [apply W; [discriminate|repeat constructor|intros k r v [[= <- <-]|[[= <- <-]|[]]] Hv; cbn in Hv; intuition]|].
  split; [apply W; [discriminate|repeat constructor|intros k r v [[= <- <-]|[]] []]|].
  split; [constructor; intros k r [[= <- <-]|[]]; exists []; cbn; auto|].
  split; [constructor; intros k r [[= <- <-]|[]]; exists []; cbn; auto|].
  split; [reflexivity|discriminate].
Qed.

(** ** Concrete cases *)
Definition ex_t : ty := TySum [[TyVal; TyFun]; [TySum [[TyVal]; []]]].
Definition ex_x : pvn := PSum [(0%N, [Val 3; LF 7 70])].
Definition ex_y : pvn := PSum [(0%N, [Val 4; LF 7 70]); (1%N, [PSum [(1%N, [])]])].
Lemma ex_hyps : wf ex_x /\ wf ex_y /\ args_by_node (fun n => n * 10) ex_x /\ args_by_node (fun n => n * 10) ex_y /\
  typed ex_t ex_x /\ typed ex_t ex_y.
Proof.
  assert (HW : forall m : psum nat nat nat, m <> [] -> StronglySorted (fun a b => N.compare (fst a) (fst b) = Lt) m ->
            Forall (fun kr => Forall wf (snd kr)) m -> wf (PSum m)).
  { intros m H1 H2 H3. constructor; try assumption. rewrite Forall_forall in H3. intros k r v Hin Hv.
    specialize (H3 _ Hin). cbn in H3. rewrite Forall_forall in H3. auto. }
  assert (HA : forall m : psum nat nat nat, Forall (fun kr => Forall (args_by_node (fun n => n * 10)) (snd kr)) m ->
            args_by_node (fun n => n * 10) (PSum m)).
  { intros m H3. constructor. rewrite Forall_forall in H3. intros k r v Hin Hv.
    specialize (H3 _ Hin). cbn in H3. rewrite Forall_forall in H3. auto. }
  assert (L : args_by_node (fun n => n * 10) (LF 7 70 : pvn)) by exact (abn_fun (fun n => n * 10) 7).
  split; [|split; [|split; [|split; [|split]]]]; unfold ex_x, ex_y, ex_t.
  1-4: repeat first [apply HW; [discriminate| |]|apply HA|exact L|constructor].
  - constructor. intros k r [[= <- <-]|[]]. eexists; split; [reflexivity|repeat constructor].
  - constructor. intros k r [[= <- <-]|[[= <- <-]|[]]]; (eexists; split; [reflexivity|]); repeat constructor.
    intros k r [[= <- <-]|[]]. eexists; split; [reflexivity|constructor].
Qed.
Example join_ex : join E E ex_y ex_x = (PSum [(0%N, [Top; LF 7 70]); (1%N, [PSum [(1%N, [])]])], true).
Proof. reflexivity. Qed.
Example meet_ex : meet E E ex_y ex_x = (PSum [(0%N, [Bottom; LF 7 70])], true).
Proof. reflexivity. Qed.
Example meet_ex_empty : contains_bottom (fst (meet E E ex_y ex_x)) = true.
Proof. reflexivity. Qed.
Example join_lub_ex : is_lub ex_x ex_y (fst (join E E ex_y ex_x)).
Proof.
  destruct ex_hyps as (W1 & W2 & A1 & A2 & _). pose proof (join_is_lub E E _ ex_x ex_y W1 W2 A1 A2) as H.
  destruct (join E E ex_y ex_x). apply H.
Qed.
Example meet_glb_ex : is_glb ex_x ex_y (fst (meet E E ex_y ex_x)).
Proof.
  destruct ex_hyps as (W1 & W2 & A1 & A2 & T1 & T2). pose proof (meet_is_glb_partial E E _ _ ex_x ex_y W1 W2 A1 A2 T1 T2) as H.
  destruct (meet E E ex_y ex_x). apply H.
Qed.
Example cmp_ex : pv_cmp E E E ex_x (fst (join E E ex_y ex_x)) = Some Lt.
Proof. reflexivity. Qed.
Example row_ex : row_join E E [ex_y; Val 1] [ex_x; Val 1] =
  Some ([PSum [(0%N, [Top; LF 7 70]); (1%N, [PSum [(1%N, [])]])]; Val 1], true).
Proof. reflexivity. Qed.
Example variant_ex : variant_values ex_y 1%N 1 = inr (Some [PSum [(1%N, [])]]).
Proof. reflexivity. Qed.
Example unpack_ex : unpack_first [ex_y; Val 9] 0%N 2 = inr (Some [Val 4; LF 7 70; Val 9]).
Proof. reflexivity. Qed.
Definition rebuild := try_into (V := nat) (N := nat) (A := nat) (C := conc nat nat nat)
  (fun v => Some (CVal v)) (fun n a => Some (CFun n a)) (fun k cs _ => Some (CSum k cs)).
Example try_into_ex : rebuild ex_x (TSum [[TOther; TOther]; []]) = Some (CSum 0%N [CVal 3; CFun 7 70]) /\
  rebuild ex_y (TSum [[TOther; TOther]; [TSum [[]; []]]]) = None.
Proof. split; reflexivity. Qed.

Print Assumptions join_is_lub.
Print Assumptions join_algebra.
Print Assumptions comparison_extends_information_order.
Print Assumptions join_above_in_comparison.
Print Assumptions join_least_in_comparison_refuted.
Print Assumptions join_commutes_with_type_args_refuted.
Print Assumptions meet_is_glb_partial.
Print Assumptions meet_algebra.
Print Assumptions meet_changed_exact_refuted.
Print Assumptions meet_untyped_glb_refuted.
Print Assumptions row_join_pointwise.
Print Assumptions order_is_sound.
Print Assumptions join_keeps_described.
Print Assumptions meet_describes_intersection.
Print Assumptions contains_bottom_iff_empty.
Print Assumptions variant_values_exact.
Print Assumptions supports_tag_exact.
Print Assumptions unpack_first_exact.
Print Assumptions try_into_sound.
Print Assumptions try_into_complete.
