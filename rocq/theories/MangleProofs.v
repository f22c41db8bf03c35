From Coq Require Import List Arith NArith DecimalN Lia Bool.
From Verif Require Import MangleModel MangleSpec.
Import ListNotations.
Open Scope N_scope.

Lemma escape_cons c s : escape_dollar (c :: s) =
  if c =? chr_dollar then chr_back :: chr_dollar :: escape_dollar s else c :: escape_dollar s.
Proof. unfold escape_dollar. cbn. destruct (c =? chr_dollar); reflexivity. Qed.

(** An escaped string does not start with a dollar. *)
Lemma escape_head s r : escape_dollar s = chr_dollar :: r -> False.
Proof.
  destruct s as [|c s]; [discriminate|]. rewrite escape_cons.
  destruct (N.eqb_spec c chr_dollar) as [->|NE]; [discriminate|]. intros [= E _]. auto.
Qed.

Lemma escape_inj s : forall t, escape_dollar s = escape_dollar t -> s = t.
Proof.
  induction s as [|c s IH]; intros [|d t].
  - reflexivity.
  - rewrite escape_cons. destruct (d =? chr_dollar); discriminate.
  - rewrite escape_cons. destruct (c =? chr_dollar); discriminate.
  - rewrite !escape_cons.
    destruct (N.eqb_spec c chr_dollar) as [->|NC], (N.eqb_spec d chr_dollar) as [->|ND].
    + intros [= E]. f_equal. auto.
    + intros [= <- E]. symmetry in E. apply escape_head in E. destruct E.
    + intros [= -> E]. apply escape_head in E. destruct E.
    + intros [= <- E]. f_equal. auto.
Qed.

(** ** Numbers *)
Lemma uint_chars_inj d : forall e, uint_chars d = uint_chars e -> d = e.
Proof. induction d; destruct e; cbn; intros H; try discriminate; try reflexivity; injection H as H; f_equal; auto. Qed.

Lemma show_nat_inj n m : show_nat n = show_nat m -> n = m.
Proof.
  intros H. apply uint_chars_inj in H.
  rewrite <- (DecimalN.Unsigned.of_to n), <- (DecimalN.Unsigned.of_to m). now rewrite H.
Qed.

Lemma show_nat_chars n c : In c (show_nat n) -> 48 <= c <= 57.
Proof.
  unfold show_nat. induction (N.to_uint n); cbn; [easy|..]; intros [<-|I]; try (apply IHu; exact I); lia.
Qed.

Lemma escape_digits s : (forall c, In c s -> 48 <= c <= 57) -> escape_dollar s = s.
Proof.
  induction s as [|c s IH]; intros H; [reflexivity|]. rewrite escape_cons.
  destruct (N.eqb_spec c chr_dollar) as [->|NE].
  - assert (48 <= chr_dollar) by (apply H; now left). unfold chr_dollar in *. lia.
  - f_equal. apply IH. intros d I. apply H. now right.
Qed.

(** ** Bracket depth *)
Fixpoint depth (d : nat) (s : list N) : option nat :=
  match s with
  | [] => Some d
  | c :: t =>
    if c =? chr_open then depth (S d) t
    else if c =? chr_close then match d with O => None | S d' => depth d' t end
    else depth d t
  end.

Lemma depth_app s t : forall d, depth d (s ++ t) =
  match depth d s with Some d' => depth d' t | None => None end.
Proof.
  induction s as [|c s IH]; intros d; [reflexivity|]. cbn.
  destruct (c =? chr_open); [apply IH|]. destruct (c =? chr_close); [|apply IH]. destruct d; [reflexivity|apply IH].
Qed.

Lemma balanced_depth s : balanced s -> forall d, depth d s = Some d.
Proof.
  induction 1 as [|c s N1 N2 _ IH|s t _ IH1 _ IH2]; intros d; [reflexivity|..].
  - cbn. destruct (N.eqb_spec c chr_open); [congruence|]. destruct (N.eqb_spec c chr_close); [congruence|]. apply IH.
  - change (depth d (chr_open :: s ++ chr_close :: t)) with (depth (S d) (s ++ chr_close :: t)).
    rewrite depth_app, IH1. cbn. apply IH2.
Qed.

Lemma depth_escape s : forall d, depth d (escape_dollar s) = depth d s.
Proof.
  induction s as [|c s IH]; intros d; [reflexivity|]. rewrite escape_cons.
  destruct (N.eqb_spec c chr_dollar) as [->|NE].
  - cbn. apply IH.
  - cbn. rewrite !IH. destruct (c =? chr_open); [reflexivity|]. destruct (c =? chr_close); [|reflexivity].
    destruct d; [reflexivity|apply IH].
Qed.

Lemma digits_depth s : (forall c, In c s -> 48 <= c <= 57) -> forall d, depth d s = Some d.
Proof.
  induction s as [|c s IH]; intros H d; [reflexivity|]. cbn.
  assert (48 <= c <= 57) by (apply H; now left).
  destruct (N.eqb_spec c chr_open) as [->|_]; [unfold chr_open in *; lia|].
  destruct (N.eqb_spec c chr_close) as [->|_]; [unfold chr_close in *; lia|].
  apply IH. intros e I. apply H. now right.
Qed.

(** The bracket that closes is determined. *)
Lemma close_unique b : forall b' d r r', depth d b = Some O -> depth d b' = Some O ->
  b ++ chr_close :: r = b' ++ chr_close :: r' -> b = b' /\ r = r'.
Proof.
  induction b as [|c t IH]; intros b' d r r' D D' E.
  - cbn in D. injection D as ->. destruct b' as [|c' t']; cbn in E.
    + injection E as ->. auto.
    + injection E as <- _. change (depth 0 (chr_close :: t')) with (@None nat) in D'. discriminate D'.
  - destruct b' as [|c' t']; cbn in E; injection E as EC E; subst c.
    + cbn in D'. injection D' as ->. change (depth 0 (chr_close :: t)) with (@None nat) in D. discriminate D.
    + cbn in D, D'. destruct (c' =? chr_open).
      * destruct (IH t' _ r r' D D' E) as [-> ->]. auto.
      * destruct (c' =? chr_close).
        -- destruct d; [discriminate|]. destruct (IH t' _ r r' D D' E) as [-> ->]. auto.
        -- destruct (IH t' _ r r' D D' E) as [-> ->]. auto.
Qed.

(** Without knowing about brackets: an escaped string followed by a bracket and nothing or a
    dollar is determined. *)
Definition sep (r : list N) : Prop := r = [] \/ exists r', r = chr_dollar :: r'.

Lemma escape_close_unique : forall s s' r r', sep r -> sep r' ->
  escape_dollar s ++ chr_close :: r = escape_dollar s' ++ chr_close :: r' -> s = s' /\ r = r'.
Proof.
  assert (HEAD : forall s r x, escape_dollar s ++ chr_close :: r = chr_dollar :: x -> False).
  { intros [|c s] r x; [discriminate|]. rewrite escape_cons.
    destruct (N.eqb_spec c chr_dollar) as [->|NE]; [discriminate|]. intros [= E _]. auto. }
  assert (NIL : forall s r, escape_dollar s ++ chr_close :: r = [] -> False).
  { intros s r E. apply app_eq_nil in E. destruct E as [_ E]. discriminate. }
  induction s as [|c s IH]; intros [|d t] r r' SR SR' E.
  - cbn in E. injection E as ->. auto.
  - rewrite escape_cons in E. destruct (N.eqb_spec d chr_dollar) as [->|ND]; [discriminate|].
    cbn in E. injection E as <- E. exfalso. destruct SR as [->|[x ->]].
    + symmetry in E. eapply NIL; exact E.
    + symmetry in E. eapply HEAD; exact E.
  - rewrite escape_cons in E. destruct (N.eqb_spec c chr_dollar) as [->|NC]; [discriminate|].
    cbn in E. injection E as -> E. exfalso. destruct SR' as [->|[x ->]].
    + eapply NIL; exact E.
    + eapply HEAD; exact E.
  - rewrite !escape_cons in E.
    destruct (N.eqb_spec c chr_dollar) as [->|NC], (N.eqb_spec d chr_dollar) as [->|ND]; cbn in E.
    + injection E as E. destruct (IH t r r' SR SR' E) as [-> ->]. auto.
    + injection E as <- E. exfalso. symmetry in E. eapply HEAD; exact E.
    + injection E as -> E. exfalso. eapply HEAD; exact E.
    + injection E as <- E. destruct (IH t r r' SR SR' E) as [-> ->]. auto.
Qed.

(** A name is separated from its arguments. *)
Definition args_shape (r : list N) : Prop := r = [] \/ exists c r', c <> chr_dollar /\ r = chr_dollar :: c :: r'.

Lemma escape_name_unique : forall s s' r r', args_shape r -> args_shape r' ->
  escape_dollar s ++ chr_dollar :: r = escape_dollar s' ++ chr_dollar :: r' -> s = s' /\ r = r'.
Proof.
  (* an escaped name that is followed by a dollar and starts with one is empty *)
  assert (HEAD : forall s r x, escape_dollar s ++ chr_dollar :: r = chr_dollar :: x -> s = [] /\ r = x).
  { intros [|c s] r x; [intros [= ->]; auto|]. rewrite escape_cons.
    destruct (N.eqb_spec c chr_dollar) as [->|NE]; [discriminate|]. intros [= E _]. congruence. }
  assert (BACK : forall s r r', args_shape r -> args_shape r' ->
            r' = escape_dollar s ++ chr_dollar :: r -> False).
  { intros s r r' SR SR' E. destruct SR' as [->|(c & y & NC & ->)].
    - symmetry in E. apply app_eq_nil in E. destruct E as [_ E]. discriminate.
    - symmetry in E. apply HEAD in E. destruct E as [-> ->]. destruct SR as [F|(c2 & z & _ & F)].
      + discriminate.
      + injection F as -> _. auto. }
  induction s as [|c s IH]; intros [|d t] r r' SR SR' E.
  - cbn in E. injection E as ->. auto.
  - rewrite escape_cons in E. destruct (N.eqb_spec d chr_dollar) as [->|ND]; [discriminate|].
    cbn in E. injection E as E _. congruence.
  - rewrite escape_cons in E. destruct (N.eqb_spec c chr_dollar) as [->|NC]; [discriminate|].
    cbn in E. injection E as E _. congruence.
  - rewrite !escape_cons in E.
    destruct (N.eqb_spec c chr_dollar) as [->|NC], (N.eqb_spec d chr_dollar) as [->|ND]; cbn in E.
    + injection E as E. destruct (IH t r r' SR SR' E) as [-> ->]. auto.
    + injection E as <- E. exfalso. symmetry in E. apply HEAD in E. destruct E as [-> E].
      eapply (BACK s r r'); eauto.
    + injection E as -> E. exfalso. apply HEAD in E. destruct E as [-> E].
      eapply (BACK t r' r); eauto.
    + injection E as <- E. destruct (IH t r r' SR SR' E) as [-> ->]. auto.
Qed.

Section Args.
  Variable T : Type.
  Variable show_type : T -> list N.
  Notation write_arg := (write_arg T show_type).
  Notation write_args := (write_args T show_type).

  (** Induction on arguments through lists. *)
  Lemma targ_ind' (P : targ T -> Prop) :
    (forall t, P (ARuntime t)) -> (forall n, P (ANat n)) -> (forall s, P (AString s)) ->
    (forall l, Forall P l -> P (AList l)) -> (forall l, Forall P l -> P (ATuple l)) -> P AOther ->
    forall a, P a.
  Proof.
    intros P1 P2 P3 P4 P5 P6. fix IH 1. intros [t|n|s|l|l|]; [apply P1|apply P2|apply P3| | |exact P6].
    - apply P4. induction l as [|x l IHl]; constructor; [apply IH|exact IHl].
    - apply P5. induction l as [|x l IHl]; constructor; [apply IH|exact IHl].
  Qed.

  Lemma write_list l : write_arg (AList l) =
    match write_args l with
    | None => None
    | Some s => Some (108 :: 105 :: 115 :: 116 :: chr_open :: s ++ [chr_close])
    end.
  Proof.
    cbn [MangleModel.write_arg]. match goal with |- match ?f l with _ => _ end = _ => assert (E : f l = write_args l) end.
    { induction l as [|x l IH]; [reflexivity|]. cbn. destruct (write_arg x); [|reflexivity]. now rewrite IH. }
    now rewrite E.
  Qed.

  Lemma write_tuple l : write_arg (ATuple l) =
    match write_args l with
    | None => None
    | Some s => Some (116 :: 117 :: 112 :: 108 :: 101 :: chr_open :: s ++ [chr_close])
    end.
  Proof.
    cbn [MangleModel.write_arg]. match goal with |- match ?f l with _ => _ end = _ => assert (E : f l = write_args l) end.
    { induction l as [|x l IH]; [reflexivity|]. cbn. destruct (write_arg x); [|reflexivity]. now rewrite IH. }
    now rewrite E.
  Qed.

  Lemma write_closed_iff a : (exists s, write_arg a = Some s) <-> closed_arg T a.
  Proof.
    assert (L : forall l, Forall (fun a => (exists s, write_arg a = Some s) <-> closed_arg T a) l ->
              (exists s, write_args l = Some s) <-> Forall (closed_arg T) l).
    { induction 1 as [|x l A _ IH]; cbn.
      - split; [constructor|eauto].
      - split.
        + intros [s E]. destruct (write_arg x) as [sx|] eqn:X; [|discriminate].
          destruct (write_args l) as [sl|]; [|discriminate]. constructor; [apply A; eauto|apply IH; eauto].
        + intros F. inversion F as [|? ? F1 F2]; subst. apply A in F1. apply IH in F2.
          destruct F1 as [sx ->], F2 as [sl ->]. eauto. }
    induction a as [t|n|s|l IH|l IH|] using targ_ind'.
    - cbn. split; [constructor|eauto].
    - cbn. split; [constructor|eauto].
    - cbn. split; [constructor|eauto].
    - rewrite write_list. split.
      + intros [s E]. constructor. apply L; [exact IH|]. destruct (write_args l); [eauto|discriminate].
      + intros C. inversion C as [| | |? F|]; subst. apply L in F; [|exact IH]. destruct F as [s ->]. eauto.
    - rewrite write_tuple. split.
      + intros [s E]. constructor. apply L; [exact IH|]. destruct (write_args l); [eauto|discriminate].
      + intros C. inversion C as [| | | |? F]; subst. apply L in F; [|exact IH]. destruct F as [s ->]. eauto.
    - split; [intros [s E]; discriminate|]. intros C. inversion C.
  Qed.

  Lemma write_args_closed_iff l : (exists s, write_args l = Some s) <-> Forall (closed_arg T) l.
  Proof.
    induction l as [|x l IH]; cbn.
    - split; [constructor|eauto].
    - split.
      + intros [s E]. destruct (write_arg x) as [sx|] eqn:X; [|discriminate].
        destruct (write_args l) as [sl|]; [|discriminate].
        constructor; [apply write_closed_iff; eauto|apply IH; eauto].
      + intros F. inversion F as [|? ? F1 F2]; subst. apply write_closed_iff in F1. apply IH in F2.
        destruct F1 as [sx ->], F2 as [sl ->]. eauto.
  Qed.

  (** Every argument starts with a letter. *)
  Lemma write_head a s : write_arg a = Some s -> exists c r, s = c :: r /\ c <> chr_dollar.
  Proof.
    destruct a as [t|n|x|l|l|]; rewrite ?write_list, ?write_tuple; cbn [MangleModel.write_arg];
      try (destruct (write_args l)); intros [= <-]; eexists _, _; (split; [reflexivity|discriminate]).
  Qed.

  Lemma write_args_shape l s : write_args l = Some s -> args_shape s.
  Proof.
    destruct l as [|x l]; cbn.
    - intros [= <-]. now left.
    - destruct (write_arg x) as [sx|] eqn:X; [|discriminate]. destruct (write_args l); [|discriminate].
      intros [= <-]. destruct (write_head x sx X) as (c & r & -> & NE). right. cbn. eauto.
  Qed.

  Lemma shape_sep r : args_shape r -> sep r.
  Proof. intros [->|(c & r' & _ & ->)]; [now left|right; eauto]. Qed.

  Hypothesis show_inj : forall t u, show_type t = show_type u -> t = u.

  Lemma flat_unique l : forall m s, Forall (flat_arg T) l -> Forall (flat_arg T) m ->
    write_args l = Some s -> write_args m = Some s -> l = m.
  Proof.
    induction l as [|x l IH]; intros [|y m] s FL FM EL EM; cbn in EL, EM.
    - reflexivity.
    - injection EL as <-. destruct (write_arg y), (write_args m); discriminate.
    - injection EM as <-. destruct (write_arg x), (write_args l); discriminate.
    - inversion FL as [|? ? FX FL']; subst. inversion FM as [|? ? FY FM']; subst.
      destruct (write_arg x) as [sx|] eqn:X; [|discriminate]. destruct (write_args l) as [sl|] eqn:L; [|discriminate].
      destruct (write_arg y) as [sy|] eqn:Y; [|discriminate]. destruct (write_args m) as [sm|] eqn:M; [|discriminate].
      injection EL as <-. injection EM as EM.
      pose proof (shape_sep _ (write_args_shape l sl L)) as SL.
      pose proof (shape_sep _ (write_args_shape m sm M)) as SM.
      destruct x as [t|n|u|k|k|]; try (cbn in FX; tauto);
        destruct y as [t2|n2|u2|k2|k2|]; try (cbn in FY; tauto);
        cbn in X, Y; injection X as <-; injection Y as <-; cbn in EM; try discriminate EM;
        injection EM as EM; rewrite <- !app_assoc in EM; cbn in EM.
      + apply escape_close_unique in EM; auto. destruct EM as [E <-]. apply show_inj in E. subst.
        f_equal. eapply IH; eauto.
      + rewrite <- (escape_digits (show_nat n)), <- (escape_digits (show_nat n2)) in EM by apply show_nat_chars.
        apply escape_close_unique in EM; auto. destruct EM as [E <-]. apply show_nat_inj in E. subst.
        f_equal. eapply IH; eauto.
      + apply escape_close_unique in EM; auto. destruct EM as [-> <-]. f_equal. eapply IH; eauto.
  Qed.

  Lemma write_depth a : forall s, balanced_arg T show_type a -> write_arg a = Some s -> depth O s = Some O.
  Proof.
    assert (L : forall l, Forall (fun a => forall s, balanced_arg T show_type a -> write_arg a = Some s -> depth O s = Some O) l ->
              forall s, Forall (balanced_arg T show_type) l -> write_args l = Some s -> depth O s = Some O).
    { induction 1 as [|x l A _ IH]; intros s F E; cbn in E.
      - now injection E as <-.
      - inversion F as [|? ? FX FL]; subst.
        destruct (write_arg x) as [sx|] eqn:X; [|discriminate]. destruct (write_args l) as [sl|] eqn:WL; [|discriminate].
        injection E as <-. change (depth O (chr_dollar :: sx ++ sl)) with (depth O (sx ++ sl)).
        rewrite depth_app, (A sx FX eq_refl). apply IH; auto. }
    assert (LIFT : forall s, depth O s = Some O -> forall d, depth d s = Some d).
    { assert (G : forall s k b, depth k s = Some b -> forall d, depth (d + k) s = Some (d + b)%nat).
      { induction s as [|c s IH]; intros k b E d; cbn in *.
        - injection E as ->. reflexivity.
        - destruct (c =? chr_open); [specialize (IH _ _ E d); now rewrite Nat.add_succ_r in IH|].
          destruct (c =? chr_close); [|auto]. destruct k; [discriminate|].
          rewrite Nat.add_succ_r. auto. }
      intros s E d. specialize (G s O O E d). now rewrite !Nat.add_0_r in G. }
    induction a as [t|n|u|l IH|l IH|] using targ_ind'; intros s B E;
      rewrite ?write_list, ?write_tuple in E; cbn [MangleModel.write_arg] in E.
    - inversion B; subst. injection E as <-. cbn. rewrite depth_app, depth_escape, balanced_depth by assumption. reflexivity.
    - injection E as <-. cbn. rewrite depth_app, digits_depth by apply show_nat_chars. reflexivity.
    - inversion B; subst. injection E as <-. cbn. rewrite depth_app, depth_escape, balanced_depth by assumption. reflexivity.
    - inversion B; subst. destruct (write_args l) as [sl|] eqn:WL; [|discriminate]. injection E as <-. cbn.
      rewrite depth_app, (LIFT sl) by (eapply L; eauto). reflexivity.
    - inversion B; subst. destruct (write_args l) as [sl|] eqn:WL; [|discriminate]. injection E as <-. cbn.
      rewrite depth_app, (LIFT sl) by (eapply L; eauto). reflexivity.
    - discriminate.
  Qed.

  Lemma write_args_depth l : forall s, Forall (balanced_arg T show_type) l -> write_args l = Some s -> depth O s = Some O.
  Proof.
    induction l as [|x l IH]; intros s F E; cbn in E.
    - now injection E as <-.
    - inversion F as [|? ? FX FL]; subst.
      destruct (write_arg x) as [sx|] eqn:X; [|discriminate]. destruct (write_args l) as [sl|] eqn:WL; [|discriminate].
      injection E as <-. change (depth O (chr_dollar :: sx ++ sl)) with (depth O (sx ++ sl)).
      rewrite depth_app, (write_depth x sx FX X). apply IH; auto.
  Qed.

  (** What is written for an argument determines it, whatever follows. *)
  Lemma write_unique a : forall b sa sb r r', balanced_arg T show_type a -> balanced_arg T show_type b ->
    write_arg a = Some sa -> write_arg b = Some sb -> sa ++ r = sb ++ r' -> a = b /\ r = r'.
  Proof.
    assert (L : forall l, Forall (fun a => forall b sa sb r r', balanced_arg T show_type a -> balanced_arg T show_type b ->
                write_arg a = Some sa -> write_arg b = Some sb -> sa ++ r = sb ++ r' -> a = b /\ r = r') l ->
              forall m s, Forall (balanced_arg T show_type) l -> Forall (balanced_arg T show_type) m ->
              write_args l = Some s -> write_args m = Some s -> l = m).
    { induction 1 as [|x l A _ IH]; intros [|y m] s FL FM EL EM; cbn in EL, EM.
      - reflexivity.
      - injection EL as <-. destruct (write_arg y), (write_args m); discriminate.
      - injection EM as <-. destruct (write_arg x), (write_args l); discriminate.
      - inversion FL; subst. inversion FM; subst.
        destruct (write_arg x) as [sx|] eqn:X; [|discriminate]. destruct (write_args l) as [sl|] eqn:WL; [|discriminate].
        destruct (write_arg y) as [sy|] eqn:Y; [|discriminate]. destruct (write_args m) as [sm|] eqn:WM; [|discriminate].
        injection EL as <-. injection EM as EM.
        destruct (A y sx sy sl sm) as [-> <-]; auto. f_equal. eapply IH; eauto. }
    assert (DE : forall s, balanced s -> depth O (escape_dollar s) = Some O).
    { intros s B. rewrite depth_escape. now apply balanced_depth. }
    induction a as [t|n|u|l IH|l IH|] using targ_ind'; intros b sa sb r r' BA BB EA EB E;
      rewrite ?write_list, ?write_tuple in EA; cbn [MangleModel.write_arg] in EA;
      try (destruct (write_args l) as [sl|] eqn:WL; [|discriminate]); try discriminate;
      injection EA as <-;
      destruct b as [t2|n2|u2|l2|l2|]; rewrite ?write_list, ?write_tuple in EB; cbn [MangleModel.write_arg] in EB;
      try (destruct (write_args l2) as [sl2|] eqn:WL2; [|discriminate]); try discriminate;
      injection EB as <-; cbn in E; try discriminate E; injection E as E;
      rewrite <- !app_assoc in E; cbn in E; inversion BA; inversion BB; subst;
      match type of E with ?b0 ++ _ :: ?r0 = ?b1 ++ _ :: ?r1 =>
        destruct (close_unique b0 b1 O r0 r1) as [EB ER];
          [first [apply DE; assumption | apply digits_depth; apply show_nat_chars | eapply write_args_depth; [|eassumption]; assumption]
          |first [apply DE; assumption | apply digits_depth; apply show_nat_chars | eapply write_args_depth; [|eassumption]; assumption]
          |exact E|] end; clear E; (split; [|exact ER]); f_equal.
    - apply escape_inj in EB. now apply show_inj.
    - now apply show_nat_inj.
    - now apply escape_inj.
    - subst sl2. eapply L; eauto.
    - subst sl2. eapply L; eauto.
  Qed.

  Lemma balanced_unique l : forall m s, Forall (balanced_arg T show_type) l -> Forall (balanced_arg T show_type) m ->
    write_args l = Some s -> write_args m = Some s -> l = m.
  Proof.
    induction l as [|x l IH]; intros [|y m] s FL FM EL EM; cbn in EL, EM.
    - reflexivity.
    - injection EL as <-. destruct (write_arg y), (write_args m); discriminate.
    - injection EM as <-. destruct (write_arg x), (write_args l); discriminate.
    - inversion FL; subst. inversion FM; subst.
      destruct (write_arg x) as [sx|] eqn:X; [|discriminate]. destruct (write_args l) as [sl|] eqn:WL; [|discriminate].
      destruct (write_arg y) as [sy|] eqn:Y; [|discriminate]. destruct (write_args m) as [sm|] eqn:WM; [|discriminate].
      injection EL as <-. injection EM as EM.
      destruct (write_unique x y sx sy sl sm) as [-> <-]; auto. f_equal. eapply IH; eauto.
  Qed.
End Args.
