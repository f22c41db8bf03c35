(** Proofs about the transformation of types. *)
From Coq Require Import List Bool NArith Arith Lia.
From Verif Require Import TypesModel TypesSpec TypesProofs.
Import ListNotations.

Lemma tr_seq_inv : forall {A} (f : A -> option (A * bool)) l l' c, tr_seq f l = Some (l', c) ->
  Forall2 (fun x x' => exists c', f x = Some (x', c') /\ (c = false -> c' = false)) l l'.
Proof.
  intros A f l. induction l as [|x l IH]; intros l' c E; cbn [tr_seq] in E.
  - injection E as <- <-. constructor.
  - destruct (f x) as [[x' c1]|] eqn:Ex; [|discriminate].
    destruct (tr_seq f l) as [[r c2]|] eqn:El; [|discriminate]. injection E as <- <-.
    constructor.
    + exists c1. split; [exact Ex|]. destruct c1; [discriminate|reflexivity].
    + eapply Forall2_impl_In; [|apply (IH _ _ eq_refl)]. intros a b _ _ (c' & E & H).
      exists c'. split; [exact E|]. intros X. apply H. destruct c1; [discriminate|exact X].
Qed.

Lemma tr_seq_same : forall {A} (f : A -> option (A * bool)) l l',
  Forall (fun x => forall x', f x = Some (x', false) -> x' = x) l ->
  tr_seq f l = Some (l', false) -> l' = l.
Proof.
  intros A f l l' F E. apply tr_seq_inv in E. induction E as [|x x' l l' (c & E & H) E2 IH]; [reflexivity|].
  inversion F. subst. rewrite (H eq_refl) in E. f_equal; auto.
Qed.

Lemma tr_seq_none : forall {A} (f : A -> option (A * bool)) l,
  Forall (fun x => f x = Some (x, false)) l -> tr_seq f l = Some (l, false).
Proof. intros A f l F. induction F as [|x l H F IH]; cbn; [reflexivity|]. rewrite H, IH. reflexivity. Qed.

Section Transform.
  Variable env : N -> N -> option typedef.
  Variable tr : N -> N -> list term -> bnd -> option (option ty).

  Lemma transform_ext_eq : forall e i args b, transform_ty env tr (TExt e i args b) =
    match tr e i args b with
    | None => None
    | Some (Some nt) => Some (nt, true)
    | Some None =>
      match tr_seq (transform_term env tr) args with
      | None => None
      | Some (args', false) => Some (TExt e i args' b, false)
      | Some (args', true) =>
        match env e i with
        | None => None
        | Some d =>
          if check_terms args' (td_params d) then
            match def_bound d args' with
            | None => None
            | Some b' => Some (TExt e i args' b', true)
            end
          else None
        end
      end
    end.
  Proof. reflexivity. Qed.
  Lemma transform_fun_eq : forall x y, transform_ty env tr (TFun x y) =
    match tr_seq (transform_ty env tr) x with
    | None => None
    | Some (x', c) =>
      match tr_seq (transform_ty env tr) y with
      | None => None
      | Some (y', c') => Some (TFun x' y', c || c')
      end
    end.
  Proof. reflexivity. Qed.
  Lemma transform_sum_eq : forall rows b, transform_ty env tr (TSum rows b) =
    match tr_seq (tr_seq (transform_ty env tr)) rows with
    | None => None
    | Some (rows', c) => Some (new_sum rows', c)
    end.
  Proof. reflexivity. Qed.
  Lemma transform_type_eq : forall x, transform_term env tr (MType x) =
    option_map (fun p => (MType (fst p), snd p)) (transform_ty env tr x).
  Proof. reflexivity. Qed.
  Lemma transform_const_eq : forall x, transform_term env tr (KConst x) =
    option_map (fun p => (KConst (fst p), snd p)) (transform_ty env tr x).
  Proof. reflexivity. Qed.
  Lemma transform_klist_eq : forall x, transform_term env tr (KList x) =
    option_map (fun p => (KList (fst p), snd p)) (transform_term env tr x).
  Proof. reflexivity. Qed.
  Lemma transform_ktuple_eq : forall x, transform_term env tr (KTuple x) =
    option_map (fun p => (KTuple (fst p), snd p)) (transform_term env tr x).
  Proof. reflexivity. Qed.
  Lemma transform_list_eq : forall l, transform_term env tr (MList l) =
    option_map (fun p => (MList (fst p), snd p)) (tr_seq (transform_term env tr) l).
  Proof. reflexivity. Qed.
  Lemma transform_listc_eq : forall l, transform_term env tr (MListConcat l) =
    option_map (fun p => (MListConcat (fst p), snd p)) (tr_seq (transform_term env tr) l).
  Proof. reflexivity. Qed.
  Lemma transform_tuple_eq : forall l, transform_term env tr (MTuple l) =
    option_map (fun p => (MTuple (fst p), snd p)) (tr_seq (transform_term env tr) l).
  Proof. reflexivity. Qed.
  Lemma transform_tuplec_eq : forall l, transform_term env tr (MTupleConcat l) =
    option_map (fun p => (MTupleConcat (fst p), snd p)) (tr_seq (transform_term env tr) l).
  Proof. reflexivity. Qed.

  Ltac trans :=
    rewrite ?transform_ext_eq, ?transform_fun_eq, ?transform_sum_eq, ?transform_type_eq, ?transform_const_eq,
      ?transform_klist_eq, ?transform_ktuple_eq, ?transform_list_eq, ?transform_listc_eq, ?transform_tuple_eq,
      ?transform_tuplec_eq.

  (** The cached bounds stay right. *)
  Lemma transform_cached_both : (forall e i args b nt, tr e i args b = Some (Some nt) -> cached_ty nt) ->
    (forall t, cached_ty t -> forall t' c, transform_ty env tr t = Some (t', c) -> cached_ty t') /\
    (forall t, cached_term t -> forall t' c, transform_term env tr t = Some (t', c) -> cached_term t').
  Proof.
    intros HT.
    assert (SEQ : forall A (f : A -> option (A * bool)) (R : A -> Prop) l l' c,
              Forall (fun x => R x -> forall x' c, f x = Some (x', c) -> R x') l -> Forall R l ->
              tr_seq f l = Some (l', c) -> Forall R l').
    { intros A f R l l' c F G E. apply tr_seq_inv in E. apply Forall_forall. intros x' I.
      destruct (Forall2_In_r _ _ _ _ E I) as (x & J & c' & Ex & _). rewrite Forall_forall in F, G. eauto. }
    apply both_ind; try (intros; match goal with H : _ = Some _ |- _ => injection H as <- <- end; exact I).
    - intros e i ar b F Ca t' c. trans. destruct (tr e i ar b) as [[nt|]|] eqn:E; [| |discriminate].
      + intros X. injection X as <- <-. eauto.
      + destruct (tr_seq (transform_term env tr) ar) as [[ar' ch]|] eqn:Es; [|discriminate].
        cbn [cached_ty] in Ca. rewrite fold_and in Ca. pose proof (SEQ _ _ _ _ _ _ F Ca Es) as G.
        destruct ch.
        * destruct (env e i) as [d|]; [|discriminate]. destruct (check_terms ar' (td_params d)); [|discriminate].
          destruct (def_bound d ar'); [|discriminate]. intros X. injection X as <- <-.
          cbn [cached_ty]. apply fold_and. exact G.
        * intros X. injection X as <- <-. cbn [cached_ty]. apply fold_and. exact G.
    - intros x y Fx Fy Ca t' c. trans. cbn [cached_ty] in Ca. rewrite !fold_and in Ca. destruct Ca as [C1 C2].
      destruct (tr_seq (transform_ty env tr) x) as [[x' c1]|] eqn:E1; [|discriminate].
      destruct (tr_seq (transform_ty env tr) y) as [[y' c2]|] eqn:E2; [|discriminate].
      intros X. injection X as <- <-. cbn [cached_ty]. rewrite !fold_and.
      split; [exact (SEQ _ _ _ _ _ _ Fx C1 E1)|exact (SEQ _ _ _ _ _ _ Fy C2 E2)].
    - intros rows b F Ca t' c. trans. cbn [cached_ty] in Ca. destruct Ca as [Ca _]. rewrite fold_and in Ca.
      destruct (tr_seq (tr_seq (transform_ty env tr)) rows) as [[rows' c1]|] eqn:E; [|discriminate].
      intros X. injection X as <- <-. apply (c_sum _ _ cached_closed).
      eapply (SEQ _ _ (Forall cached_ty)); [| |exact E].
      + eapply Forall_impl; [|exact F]. intros row Fr Cr row' c Er. eapply SEQ; eauto.
      + eapply Forall_impl; [|exact Ca]. intros row. apply fold_and.
    - intros x IH Ca t' c. trans. destruct (transform_term env tr x) as [[x' c']|]; [|discriminate].
      intros X. injection X as <- <-. cbn [cached_term fst] in *. eauto.
    - intros x IH Ca t' c. trans. destruct (transform_term env tr x) as [[x' c']|]; [|discriminate].
      intros X. injection X as <- <-. cbn [cached_term fst] in *. eauto.
    - intros x IH Ca t' c. trans. destruct (transform_ty env tr x) as [[x' c']|]; [|discriminate].
      intros X. injection X as <- <-. cbn [cached_term fst] in *. eauto.
    - intros x IH Ca t' c. trans. destruct (transform_ty env tr x) as [[x' c']|]; [|discriminate].
      intros X. injection X as <- <-. cbn [cached_term fst] in *. eauto.
    - intros l F Ca t' c. trans. cbn [cached_term] in Ca. rewrite fold_and in Ca.
      destruct (tr_seq (transform_term env tr) l) as [[l' c']|] eqn:E; [|discriminate].
      intros X. injection X as <- <-. cbn [cached_term fst]. rewrite fold_and. eapply SEQ; eauto.
    - intros l F Ca t' c. trans. cbn [cached_term] in Ca. rewrite fold_and in Ca.
      destruct (tr_seq (transform_term env tr) l) as [[l' c']|] eqn:E; [|discriminate].
      intros X. injection X as <- <-. cbn [cached_term fst]. rewrite fold_and. eapply SEQ; eauto.
    - intros l F Ca t' c. trans. cbn [cached_term] in Ca. rewrite fold_and in Ca.
      destruct (tr_seq (transform_term env tr) l) as [[l' c']|] eqn:E; [|discriminate].
      intros X. injection X as <- <-. cbn [cached_term fst]. rewrite fold_and. eapply SEQ; eauto.
    - intros l F Ca t' c. trans. cbn [cached_term] in Ca. rewrite fold_and in Ca.
      destruct (tr_seq (transform_term env tr) l) as [[l' c']|] eqn:E; [|discriminate].
      intros X. injection X as <- <-. cbn [cached_term fst]. rewrite fold_and. eapply SEQ; eauto.
  Qed.

  Lemma cached_sum_eq : forall rows b, cached_ty (TSum rows b) -> new_sum rows = TSum rows b.
  Proof.
    intros rows b [_ Cb]. unfold new_sum. f_equal. pose proof (new_sum_bound rows) as NB.
    cbn [new_sum lub] in NB. destruct (lub_of (map lub (concat rows))), b; auto; exfalso.
    - assert (X : Linear = Copyable) by (apply Cb, NB; reflexivity). discriminate.
    - assert (X : Linear = Copyable) by (apply NB, Cb; reflexivity). discriminate.
  Qed.

  (** "No change" means no change. *)
  Lemma transform_same_both :
    (forall t, cached_ty t -> forall t', transform_ty env tr t = Some (t', false) -> t' = t) /\
    (forall t, cached_term t -> forall t', transform_term env tr t = Some (t', false) -> t' = t).
  Proof.
    assert (SEQ : forall A (f : A -> option (A * bool)) (R : A -> Prop) l l',
              Forall (fun x => R x -> forall x', f x = Some (x', false) -> x' = x) l -> Forall R l ->
              tr_seq f l = Some (l', false) -> l' = l).
    { intros A f R l l' F G. apply tr_seq_same. rewrite Forall_forall in *. intros x I. apply F; auto. }
    apply both_ind; try (intros; match goal with H : _ = Some _ |- _ => injection H as <- end; reflexivity).
    - intros e i ar b F Ca t'. trans. destruct (tr e i ar b) as [[nt|]|] eqn:E; [discriminate| |discriminate].
      destruct (tr_seq (transform_term env tr) ar) as [[ar' ch]|] eqn:Es; [|discriminate].
      cbn [cached_ty] in Ca. rewrite fold_and in Ca. destruct ch.
      * destruct (env e i) as [d|]; [|discriminate]. destruct (check_terms ar' (td_params d)); [|discriminate].
        destruct (def_bound d ar'); discriminate.
      * intros X. injection X as <-. f_equal. eapply SEQ; eauto.
    - intros x y Fx Fy Ca t'. trans. cbn [cached_ty] in Ca. rewrite !fold_and in Ca. destruct Ca as [C1 C2].
      destruct (tr_seq (transform_ty env tr) x) as [[x' c1]|] eqn:E1; [|discriminate].
      destruct (tr_seq (transform_ty env tr) y) as [[y' c2]|] eqn:E2; [|discriminate].
      intros X. injection X as <- X. apply orb_false_iff in X. destruct X as [-> ->].
      f_equal; [exact (SEQ _ _ _ _ _ Fx C1 E1)|exact (SEQ _ _ _ _ _ Fy C2 E2)].
    - intros rows b F Ca t'. trans. pose proof Ca as Ca'. cbn [cached_ty] in Ca. destruct Ca as [Ca _].
      rewrite fold_and in Ca.
      destruct (tr_seq (tr_seq (transform_ty env tr)) rows) as [[rows' c1]|] eqn:E; [|discriminate].
      intros X. injection X as <- ->. replace rows' with rows; [apply cached_sum_eq; exact Ca'|].
      symmetry. eapply (SEQ _ _ (Forall cached_ty)); [| |exact E].
      + eapply Forall_impl; [|exact F]. intros row Fr Cr row' Er. eapply SEQ; eauto.
      + eapply Forall_impl; [|exact Ca]. intros row. apply fold_and.
    - intros x IH Ca t'. trans. destruct (transform_term env tr x) as [[x' c']|]; [|discriminate].
      intros X. injection X as <- ->. cbn [cached_term fst] in *. f_equal. eauto.
    - intros x IH Ca t'. trans. destruct (transform_term env tr x) as [[x' c']|]; [|discriminate].
      intros X. injection X as <- ->. cbn [cached_term fst] in *. f_equal. eauto.
    - intros x IH Ca t'. trans. destruct (transform_ty env tr x) as [[x' c']|]; [|discriminate].
      intros X. injection X as <- ->. cbn [cached_term fst] in *. f_equal. eauto.
    - intros x IH Ca t'. trans. destruct (transform_ty env tr x) as [[x' c']|]; [|discriminate].
      intros X. injection X as <- ->. cbn [cached_term fst] in *. f_equal. eauto.
    - intros l F Ca t'. trans. cbn [cached_term] in Ca. rewrite fold_and in Ca.
      destruct (tr_seq (transform_term env tr) l) as [[l' c']|] eqn:E; [|discriminate].
      intros X. injection X as <- ->. cbn [fst]. f_equal. eapply SEQ; eauto.
    - intros l F Ca t'. trans. cbn [cached_term] in Ca. rewrite fold_and in Ca.
      destruct (tr_seq (transform_term env tr) l) as [[l' c']|] eqn:E; [|discriminate].
      intros X. injection X as <- ->. cbn [fst]. f_equal. eapply SEQ; eauto.
    - intros l F Ca t'. trans. cbn [cached_term] in Ca. rewrite fold_and in Ca.
      destruct (tr_seq (transform_term env tr) l) as [[l' c']|] eqn:E; [|discriminate].
      intros X. injection X as <- ->. cbn [fst]. f_equal. eapply SEQ; eauto.
    - intros l F Ca t'. trans. cbn [cached_term] in Ca. rewrite fold_and in Ca.
      destruct (tr_seq (transform_term env tr) l) as [[l' c']|] eqn:E; [|discriminate].
      intros X. injection X as <- ->. cbn [fst]. f_equal. eapply SEQ; eauto.
  Qed.
End Transform.

(** Nothing to replace: nothing changes. *)
Lemma transform_none_both : forall env tr, (forall e i args b, tr e i args b = Some None) ->
  (forall t, cached_ty t -> transform_ty env tr t = Some (t, false)) /\
  (forall t, cached_term t -> transform_term env tr t = Some (t, false)).
Proof.
  intros env tr HT.
  assert (SEQ : forall A (f : A -> option (A * bool)) (R : A -> Prop) l,
            Forall (fun x => R x -> f x = Some (x, false)) l -> Forall R l -> tr_seq f l = Some (l, false)).
  { intros A f R l F G. apply tr_seq_none. rewrite Forall_forall in *. auto. }
  apply both_ind; try (intros; reflexivity).
  - intros e i ar b F Ca. rewrite transform_ext_eq, HT. cbn [cached_ty] in Ca. rewrite fold_and in Ca.
    rewrite (SEQ _ _ _ _ F Ca). reflexivity.
  - intros x y Fx Fy Ca. rewrite transform_fun_eq. cbn [cached_ty] in Ca. rewrite !fold_and in Ca.
    destruct Ca as [C1 C2]. rewrite (SEQ _ _ _ _ Fx C1), (SEQ _ _ _ _ Fy C2). reflexivity.
  - intros rows b F Ca. rewrite transform_sum_eq. pose proof Ca as Ca'. cbn [cached_ty] in Ca.
    destruct Ca as [Ca _]. rewrite fold_and in Ca.
    rewrite (SEQ _ _ (Forall cached_ty)).
    + rewrite (cached_sum_eq _ _ Ca'). reflexivity.
    + eapply Forall_impl; [|exact F]. intros row Fr Cr. eapply SEQ; eauto.
    + eapply Forall_impl; [|exact Ca]. intros row. apply fold_and.
  - intros x IH Ca. rewrite transform_klist_eq, (IH Ca). reflexivity.
  - intros x IH Ca. rewrite transform_ktuple_eq, (IH Ca). reflexivity.
  - intros x IH Ca. rewrite transform_const_eq, (IH Ca). reflexivity.
  - intros x IH Ca. rewrite transform_type_eq, (IH Ca). reflexivity.
  - intros l F Ca. rewrite transform_list_eq. cbn [cached_term] in Ca. rewrite fold_and in Ca.
    rewrite (SEQ _ _ _ _ F Ca). reflexivity.
  - intros l F Ca. rewrite transform_listc_eq. cbn [cached_term] in Ca. rewrite fold_and in Ca.
    rewrite (SEQ _ _ _ _ F Ca). reflexivity.
  - intros l F Ca. rewrite transform_tuple_eq. cbn [cached_term] in Ca. rewrite fold_and in Ca.
    rewrite (SEQ _ _ _ _ F Ca). reflexivity.
  - intros l F Ca. rewrite transform_tuplec_eq. cbn [cached_term] in Ca. rewrite fold_and in Ca.
    rewrite (SEQ _ _ _ _ F Ca). reflexivity.
Qed.
