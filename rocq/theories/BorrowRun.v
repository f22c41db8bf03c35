(** * Runs of programs on arrays *)

From Coq Require Import List Arith Lia NArith Bool.
From Verif Require Import BorrowModel BorrowSpec BorrowBits BorrowProofs.
Import ListNotations.
Open Scope N_scope.

Section Runs.
Context {V : Type}.
Variable B : N.
Hypothesis HB : 1 <= B.

Notation W := (W B).
Notation heap := (@heap V).
Notation repr := (repr B).
Notation in_place := (in_place B).
Notation is_new := (is_new B).

Implicit Types (h : heap) (hd : handle) (s : @state V) (a : @arrays V).

Record sim s a : Prop := {
  s_wf : hwf (mem s);
  s_length : length (wires s) = length a;
  s_array : forall w hd, nth_error (wires s) w = Some (Some hd) ->
    exists l, nth_error a w = Some (Some (kind_of hd, l)) /\ repr (mem s) hd l;
  s_none : forall w, nth_error (wires s) w = Some None -> nth_error a w = Some None;
  s_disjoint : forall w w' hd hd', w <> w' ->
    nth_error (wires s) w = Some (Some hd) ->
    nth_error (wires s) w' = Some (Some hd') ->
    forall p, In p (ptrs hd) -> ~ In p (ptrs hd')
}.

Lemma in_ptrs hd p : In p (ptrs hd) <-> elems_ptr hd = p \/ mask_ptr hd = Some p.
Proof.
  unfold ptrs. cbn. destruct (mask_ptr hd) as [q|]; cbn; split.
  - intros [H|[H|[]]]; [now left|right; congruence].
  - intros [H|H]; [now left|right; left; congruence].
  - intros [H|[]]; now left.
  - intros [H|H]; [now left|discriminate].
Qed.

Lemma no_leak_ptrs s : no_leak s <->
  forall p, cell (mem s) p <> None ->
    exists w hd, nth_error (wires s) w = Some (Some hd) /\ In p (ptrs hd).
Proof.
  split; intros H p Hp; destruct (H p Hp) as (w & hd & E & P); exists w, hd;
    (split; [exact E|]); now apply in_ptrs.
Qed.

Lemma sim_live s a w hd p : sim s a ->
  nth_error (wires s) w = Some (Some hd) -> In p (ptrs hd) ->
  (p < next (mem s))%nat.
Proof.
  intros S E Hp. destruct (s_array _ _ S _ _ E) as (l & _ & R).
  apply live_lt; [exact (s_wf _ _ S)|]. eapply repr_live; eassumption.
Qed.

Lemma sim_none s a w : sim s a ->
  (forall hd, nth_error (wires s) w <> Some (Some hd)) ->
  forall kd l, nth_error a w <> Some (Some (kd, l)).
Proof.
  intros S H kd l E. destruct (nth_error (wires s) w) as [[hd|]|] eqn:Ew.
  - now apply (H hd).
  - apply (s_none _ _ S) in Ew. congruence.
  - apply nth_error_None in Ew. rewrite (s_length _ _ S) in Ew.
    apply nth_error_None in Ew. congruence.
Qed.

(** The other arrays are as before. *)
Lemma others s a w hd h' w' hd' : sim s a ->
  nth_error (wires s) w = Some (Some hd) -> trans (mem s) (ptrs hd) h' ->
  w' <> w -> nth_error (wires s) w' = Some (Some hd') ->
  forall p, In p (ptrs hd') -> cell h' p = cell (mem s) p.
Proof.
  intros S E T Hne E' p Hp. apply (t_same _ _ _ T).
  - eapply sim_live; eassumption.
  - intro I. exact (s_disjoint _ _ S _ _ _ _ Hne E' E p Hp I).
Qed.

Lemma put_error {A} (l : list A) k x j y : nth_error l k = Some y ->
  nth_error (put l k x) j = if Nat.eqb j k then Some x else nth_error l j.
Proof.
  intro H. rewrite put_replace, replace_nth_error.
  destruct (Nat.eqb_spec j k) as [->|]; [now rewrite H|reflexivity].
Qed.

Lemma put_same {A} (l : list A) k x : nth_error l k = Some x -> put l k x = l.
Proof. intro H. rewrite put_replace. now apply replace_nth_same. Qed.

Lemma sim_change s a w hd h' hd' l' : sim s a ->
  nth_error (wires s) w = Some (Some hd) ->
  trans (mem s) (ptrs hd) h' -> repr h' hd' l' ->
  (forall p, In p (ptrs hd') -> In p (ptrs hd) \/ (next (mem s) <= p)%nat) ->
  sim (change s h' w hd') (out a w (Some (kind_of hd', l'))).
Proof.
  intros S E T R P. destruct (s_array _ _ S _ _ E) as (l & Ea & _).
  constructor; cbn [change mem wires].
  - exact (t_wf _ _ _ T).
  - unfold out. rewrite put_replace, !replace_nth_length. exact (s_length _ _ S).
  - intros w' hd2 H. rewrite (put_error _ _ _ _ _ E) in H.
    unfold out. rewrite replace_nth_error.
    destruct (Nat.eqb_spec w' w) as [->|Hne].
    + injection H as <-. rewrite Ea. eauto.
    + destruct (s_array _ _ S _ _ H) as (l2 & E2 & R2). exists l2.
      split; [exact E2|]. apply (repr_frame B (mem s)); [|exact R2].
      exact (others _ _ _ _ _ _ _ S E T Hne H).
  - intros w' H. rewrite (put_error _ _ _ _ _ E) in H.
    unfold out. rewrite replace_nth_error.
    destruct (Nat.eqb_spec w' w) as [Heq|Hne]; [discriminate|].
    now apply (s_none _ _ S).
  - assert (forall w2 hd2, w2 <> w -> nth_error (wires s) w2 = Some (Some hd2) ->
      forall p, In p (ptrs hd') -> ~ In p (ptrs hd2)) as D.
    { intros w2 hd2 Hne E2 p Hp Hp2. destruct (P p Hp) as [I|I].
      - exact (s_disjoint _ _ S w w2 hd hd2 (not_eq_sym Hne) E E2 p I Hp2).
      - pose proof (sim_live _ _ _ _ _ S E2 Hp2). lia. }
    intros w1 w2 hd1 hd2 Hne E1 E2 p Hp.
    rewrite (put_error _ _ _ _ _ E) in E1.
    rewrite (put_error _ _ _ _ _ E) in E2.
    destruct (Nat.eqb_spec w1 w) as [->|H1], (Nat.eqb_spec w2 w) as [->|H2].
    + congruence.
    + injection E1 as <-. eapply D; eassumption.
    + injection E2 as <-. intro Hp'. exact (D _ _ H1 E1 _ Hp' Hp).
    + exact (s_disjoint _ _ S _ _ _ _ Hne E1 E2 p Hp).
Qed.

Lemma sim_drop s a w hd h' : sim s a ->
  nth_error (wires s) w = Some (Some hd) ->
  trans (mem s) (ptrs hd) h' -> sim (drop s h' w) (out a w None).
Proof.
  intros S E T. destruct (s_array _ _ S _ _ E) as (l & Ea & _).
  constructor; cbn [drop mem wires].
  - exact (t_wf _ _ _ T).
  - unfold out. rewrite put_replace, !replace_nth_length. exact (s_length _ _ S).
  - intros w' hd2 H. rewrite (put_error _ _ _ _ _ E) in H.
    unfold out. rewrite replace_nth_error.
    destruct (Nat.eqb_spec w' w) as [->|Hne]; [discriminate|].
    destruct (s_array _ _ S _ _ H) as (l2 & E2 & R2). exists l2.
    split; [exact E2|]. apply (repr_frame B (mem s)); [|exact R2].
    exact (others _ _ _ _ _ _ _ S E T Hne H).
  - intros w' H. rewrite (put_error _ _ _ _ _ E) in H.
    unfold out. rewrite replace_nth_error.
    destruct (Nat.eqb_spec w' w) as [Heq|Hne]; [now rewrite Heq, Ea|].
    now apply (s_none _ _ S).
  - intros w1 w2 hd1 hd2 Hne E1 E2 p Hp.
    rewrite (put_error _ _ _ _ _ E) in E1.
    rewrite (put_error _ _ _ _ _ E) in E2.
    destruct (Nat.eqb_spec w1 w) as [->|H1]; [discriminate|].
    destruct (Nat.eqb_spec w2 w) as [->|H2]; [discriminate|].
    exact (s_disjoint _ _ S _ _ _ _ Hne E1 E2 p Hp).
Qed.

Lemma snoc_error {A} (l : list A) x j y : nth_error (l ++ [x]) j = Some y ->
  ((j < length l)%nat /\ nth_error l j = Some y) \/ (j = length l /\ y = x).
Proof.
  intro H. destruct (Nat.lt_ge_cases j (length l)) as [L|L].
  - left. split; [exact L|]. now rewrite nth_error_app1 in H.
  - right. rewrite nth_error_app2 in H by exact L.
    destruct (j - length l)%nat as [|k] eqn:K.
    + cbn in H. split; [lia|congruence].
    + cbn in H. now destruct k.
Qed.

Lemma sim_add s a h' hd l : sim s a -> is_new (mem s) h' hd l ->
  sim (add s h' hd) (a ++ [Some (kind_of hd, l)]).
Proof.
  intros S [T R P C].
  assert (Hold : forall w hd2, nth_error (wires s) w = Some (Some hd2) ->
    forall p, In p (ptrs hd2) -> cell h' p = cell (mem s) p).
  { intros w hd2 E p Hp. apply (t_same _ _ _ T); [|intros []].
    eapply sim_live; eassumption. }
  constructor; cbn [add mem wires].
  - exact (t_wf _ _ _ T).
  - rewrite !app_length, (s_length _ _ S). reflexivity.
  - intros w hd2 H. apply snoc_error in H. destruct H as [(L & H)|(-> & H)].
    + destruct (s_array _ _ S _ _ H) as (l2 & E2 & R2). exists l2. split.
      * rewrite nth_error_app1; [exact E2|]. now rewrite <- (s_length _ _ S).
      * apply (repr_frame B (mem s)); [|exact R2]. eapply Hold; eassumption.
    + injection H as ->. exists l. split; [|exact R].
      rewrite (s_length _ _ S), nth_error_app2, Nat.sub_diag by lia. reflexivity.
  - intros w H. apply snoc_error in H. destruct H as [(L & H)|(-> & H)];
      [|discriminate]. rewrite nth_error_app1; [now apply (s_none _ _ S)|].
    now rewrite <- (s_length _ _ S).
  - intros w1 w2 hd1 hd2 Hne E1 E2 p Hp Hp'.
    apply snoc_error in E1, E2.
    destruct E1 as [(L1 & E1)|(-> & E1)], E2 as [(L2 & E2)|(-> & E2)].
    + exact (s_disjoint _ _ S _ _ _ _ Hne E1 E2 p Hp Hp').
    + injection E2 as ->. apply P in Hp'.
      pose proof (sim_live _ _ _ _ _ S E1 Hp). lia.
    + injection E1 as ->. apply P in Hp.
      pose proof (sim_live _ _ _ _ _ S E2 Hp'). lia.
    + congruence.
Qed.

(** Nothing leaks. *)
Lemma leak_change s a w hd h' hd' : sim s a -> no_leak s ->
  nth_error (wires s) w = Some (Some hd) ->
  trans (mem s) (ptrs hd) h' -> cleaned (mem s) (ptrs hd) h' (ptrs hd') ->
  no_leak (change s h' w hd').
Proof.
  intros S L E T C. rewrite no_leak_ptrs in *. cbn [change mem wires].
  intros p Hp. destruct (in_dec Nat.eq_dec p (ptrs hd)) as [I|I].
  - exists w, hd'. rewrite (put_error _ _ _ _ _ E), Nat.eqb_refl.
    split; [reflexivity|]. apply C; auto.
  - destruct (Nat.lt_ge_cases p (next (mem s))) as [Lt|Ge].
    + rewrite (t_same _ _ _ T _ Lt I) in Hp.
      destruct (L p Hp) as (w2 & hd2 & E2 & P2). exists w2, hd2.
      rewrite (put_error _ _ _ _ _ E).
      destruct (Nat.eqb_spec w2 w) as [->|]; [|auto].
      rewrite E in E2. injection E2 as <-. contradiction.
    + exists w, hd'. rewrite (put_error _ _ _ _ _ E), Nat.eqb_refl.
      split; [reflexivity|]. apply C; auto.
Qed.

Lemma leak_drop s a w hd h' : sim s a -> no_leak s ->
  nth_error (wires s) w = Some (Some hd) ->
  trans (mem s) (ptrs hd) h' -> cleaned (mem s) (ptrs hd) h' [] ->
  no_leak (drop s h' w).
Proof.
  intros S L E T C. rewrite no_leak_ptrs in *. cbn [drop mem wires].
  intros p Hp. destruct (in_dec Nat.eq_dec p (ptrs hd)) as [I|I].
  - exfalso. apply (C p); auto.
  - destruct (Nat.lt_ge_cases p (next (mem s))) as [Lt|Ge].
    + rewrite (t_same _ _ _ T _ Lt I) in Hp.
      destruct (L p Hp) as (w2 & hd2 & E2 & P2). exists w2, hd2.
      rewrite (put_error _ _ _ _ _ E).
      destruct (Nat.eqb_spec w2 w) as [->|]; [|auto].
      rewrite E in E2. injection E2 as <-. contradiction.
    + exfalso. apply (C p); auto.
Qed.

Lemma leak_add s h' hd l : no_leak s -> is_new (mem s) h' hd l ->
  no_leak (add s h' hd).
Proof.
  intros L [T R P C]. rewrite no_leak_ptrs in *. cbn [add mem wires].
  intros p Hp. destruct (Nat.lt_ge_cases p (next (mem s))) as [Lt|Ge].
  - rewrite (t_same _ _ _ T _ Lt (fun x => x)) in Hp.
    destruct (L p Hp) as (w2 & hd2 & E2 & P2). exists w2, hd2.
    split; [|exact P2]. rewrite nth_error_app1; [exact E2|].
    apply nth_error_Some. congruence.
  - exists (length (wires s)), hd. split.
    + rewrite nth_error_app2, Nat.sub_diag by lia. reflexivity.
    + apply C; auto.
Qed.

(** What a step does. *)
Definition step_ok (i : @instr V) s a (r : res (@state V * obs))
    (r' : res (@arrays V * (list bool * list V))) : Prop :=
  match r, r' with
  | Ok (s', o), Ok (a', o') =>
      o = o' /\ sim s' a' /\ (frees_all i a -> no_leak s -> no_leak s')
  | Panic e, Panic e' => e = e'
  | Stuck, Stuck => True
  | _, _ => False
  end.

Lemma step_add i s a h' hd l o : sim s a -> is_new (mem s) h' hd l ->
  step_ok i s a (Ok (add s h' hd, o)) (Ok (a ++ [Some (kind_of hd, l)], o)).
Proof.
  intros S N. split; [reflexivity|]. split; [now apply sim_add|].
  intros _ L. eapply leak_add; eassumption.
Qed.

Lemma step_change i s a w hd h' hd' l' o : sim s a ->
  nth_error (wires s) w = Some (Some hd) -> in_place (mem s) hd h' hd' l' ->
  step_ok i s a (Ok (change s h' w hd', o))
    (Ok (out a w (Some (kind_of hd', l')), o)).
Proof.
  intros S E [T R P C]. split; [reflexivity|].
  split; [eapply sim_change; eassumption|]. intros _ L.
  eapply leak_change; eassumption.
Qed.

Lemma keep_change s w hd h' : nth_error (wires s) w = Some (Some hd) ->
  keep s h' = change s h' w hd.
Proof. intro E. unfold keep, change. now rewrite put_same. Qed.

Lemma step_keep i s a w hd h' l' o : sim s a ->
  nth_error (wires s) w = Some (Some hd) -> in_place (mem s) hd h' hd l' ->
  step_ok i s a (Ok (keep s h', o)) (Ok (out a w (Some (kind_of hd, l')), o)).
Proof.
  intros S E I. rewrite (keep_change _ _ _ _ E). now apply step_change with hd.
Qed.

Lemma step_same i s a o : sim s a ->
  step_ok i s a (Ok (keep s (mem s), o)) (Ok (a, o)).
Proof.
  intro S. assert (keep s (mem s) = s) as -> by now destruct s.
  split; [reflexivity|]. split; [exact S|auto].
Qed.

Lemma step_drop_leaky i s a w hd h' o : sim s a ->
  nth_error (wires s) w = Some (Some hd) -> trans (mem s) (ptrs hd) h' ->
  (frees_all i a -> cleaned (mem s) (ptrs hd) h' []) ->
  step_ok i s a (Ok (drop s h' w, o)) (Ok (out a w None, o)).
Proof.
  intros S E T C. split; [reflexivity|].
  split; [eapply sim_drop; eassumption|]. intros F L.
  eapply leak_drop; eauto.
Qed.

Lemma wire_cases i s a w (k : handle -> res (@state V * obs))
    (k' : kind -> cells -> res (@arrays V * (list bool * list V))) :
  sim s a ->
  (forall hd l, nth_error (wires s) w = Some (Some hd) ->
     nth_error a w = Some (Some (kind_of hd, l)) -> repr (mem s) hd l ->
     step_ok i s a (k hd) (k' (kind_of hd) l)) ->
  step_ok i s a (on_wire s w k) (with_array a w k').
Proof.
  intros S H. unfold on_wire, with_array.
  destruct (nth_error (wires s) w) as [[hd|]|] eqn:E.
  - destruct (s_array _ _ S _ _ E) as (l & Ea & R). rewrite Ea. now apply H.
  - now rewrite (s_none _ _ S _ E).
  - apply nth_error_None in E. rewrite (s_length _ _ S) in E.
    apply nth_error_None in E. now rewrite E.
Qed.

Lemma borrow_cases i s a w (k : handle -> nat -> res (@state V * obs))
    (k' : cells -> res (@arrays V * (list bool * list V))) :
  sim s a ->
  (forall hd mp l, nth_error (wires s) w = Some (Some hd) ->
     mask_ptr hd = Some mp -> kind_of hd = Borrowable ->
     nth_error a w = Some (Some (Borrowable, l)) -> repr (mem s) hd l ->
     step_ok i s a (k hd mp) (k' l)) ->
  step_ok i s a (on_borrow s w k) (with_borrowable a w k').
Proof.
  intros S H. apply wire_cases; [exact S|]. intros hd l E Ea R.
  unfold kind_of in *. destruct (mask_ptr hd) as [mp|] eqn:Em; [|exact Logic.I].
  apply H; auto. unfold kind_of. now rewrite Em.
Qed.

Lemma in_place_free h hd h1 l h3 : hwf h -> in_place h hd h1 hd l ->
  trans h1 (ptrs hd) h3 -> next h3 = next h1 ->
  (forall p, In p (ptrs hd) -> cell h3 p = None) ->
  (forall p, ~ In p (ptrs hd) -> cell h3 p = cell h1 p) ->
  trans h (ptrs hd) h3 /\ cleaned h (ptrs hd) h3 [].
Proof.
  intros Hw [T R P C] T3 N3 G O. split.
  - eapply trans_trans; eassumption.
  - intros p Hp Hl. destruct (in_dec Nat.eq_dec p (ptrs hd)) as [I|I].
    + now rewrite G in Hl.
    + rewrite O in Hl by exact I. exfalso. apply I. now apply C.
Qed.

Lemma step_refines i s a : sim s a -> fits_instr B i a ->
  step_ok i s a (step B i s) (spec_step i a).
Proof.
  intros S F. pose proof (s_wf _ _ S) as Hw.
  destruct i; cbn [step spec_step]; cbn [fits_instr] in F.
  - destruct (new_array_spec B HB (mem s) kd esz vs Hw F) as (h' & hd & -> & <- & N).
    cbn [bind]. now apply step_add.
  - destruct F as (F1 & F2).
    destruct (value_spec B HB (mem s) kd esz vs Hw F1 F2) as (h' & hd & -> & <- & N).
    cbn [bind]. now apply step_add.
  - pose proof (new_all_borrowed_spec B HB (mem s) esz n Hw F) as N.
    destruct (emit_new_all_borrowed B (mem s) esz n) as [h' hd].
    destruct N as (<- & N). now apply step_add.
  - destruct (repeat_spec B HB (mem s) kd esz n gen Hw F) as (h' & hd & -> & <- & N).
    cbn [bind]. now apply step_add.
  - (* unpack *)
    apply wire_cases; [exact S|]. intros hd l E Ea R.
    rewrite (unpack_spec B HB _ _ _ R). destruct (full l) as [vs|]; cbn [bind];
      [|reflexivity].
    apply step_drop_leaky with hd; auto using trans_refl. intros [].
  - (* get *)
    apply wire_cases; [exact S|]. intros hd l E Ea R.
    rewrite (get_spec B HB _ _ _ _ R F).
    destruct (at_index l i) as [[v|]|]; cbn [bind]; [|reflexivity|];
      now apply step_same.
  - (* set *)
    apply wire_cases; [exact S|]. intros hd l E Ea R.
    pose proof (set_spec B HB _ _ _ _ v Hw R F) as C.
    destruct (at_index l i) as [[x|]|]; [|now rewrite C|].
    + destruct C as (h' & -> & C). cbn [bind]. now apply step_keep.
    + rewrite C. cbn [bind]. now apply step_same.
  - (* swap *)
    apply wire_cases; [exact S|]. intros hd l E Ea R. destruct F as (F1 & F2).
    pose proof (swap_spec B HB _ _ _ _ _ Hw R F1 F2) as C.
    destruct (at_index l i) as [[x|]|], (at_index l j) as [[y|]|];
      try (rewrite C; cbn [bind]; first [reflexivity | now apply step_same]).
    destruct C as (h' & -> & C). cbn [bind]. now apply step_keep.
  - (* pop *)
    destruct pop_left; apply wire_cases; try exact S; intros hd l E Ea R.
    + pose proof (pop_left_spec B HB _ _ _ Hw R) as C.
      destruct l as [|[v|] r]; [|destruct C as (hd' & -> & K & C)|now rewrite C].
      * rewrite C. cbn [bind]. apply step_drop_leaky with hd; auto using trans_refl.
        intro Fr. destruct (Fr _ Ea).
      * cbn [bind]. rewrite <- K. now apply step_change with hd.
    + pose proof (pop_right_spec B HB _ _ _ Hw R) as C.
      destruct (rev l) as [|[v|] r] eqn:Er;
        [|destruct C as (hd' & -> & K & C)|now rewrite C].
      * rewrite C. cbn [bind]. apply step_drop_leaky with hd; auto using trans_refl.
        intro Fr. assert (l = []) as -> by (now rewrite <- (rev_involutive l), Er).
        destruct (Fr _ Ea).
      * cbn [bind]. rewrite <- K. now apply step_change with hd.
  - (* discard_empty *)
    apply wire_cases; [exact S|]. intros hd l E Ea R.
    pose proof (size_length B _ _ _ R) as Hs.
    destruct (N.eqb_spec (asize hd) 0) as [Z|Z]; destruct l as [|x l];
      try (cbn [length] in Hs; lia); [|exact Logic.I].
    unfold emit_discard_empty.
    destruct (free_both B HB _ _ _ Hw R) as (h1 & h2 & -> & E2 & T & N2 & G & O).
    cbn [bind]. rewrite E2. cbn [bind].
    destruct (in_place_free (mem s) hd (mem s) [] h2 Hw) as (T' & C'); auto.
    { now apply in_place_refl. }
    now apply step_drop_leaky with hd.
  - (* clone *)
    apply wire_cases; [exact S|]. intros hd l E Ea R.
    pose proof (clone_spec B HB _ _ _ Hw R) as C.
    destruct (full l) as [vs|]; [|now rewrite C].
    destruct C as (h1 & h' & hd' & -> & K & I1 & N1). cbn [bind].
    pose proof (sim_change _ _ _ _ _ _ _ S E (ip_trans _ _ _ _ _ _ I1)
                  (ip_repr _ _ _ _ _ _ I1) (ip_ptrs _ _ _ _ _ _ I1)) as S1.
    unfold out in S1. rewrite replace_nth_same in S1 by exact Ea.
    rewrite <- (keep_change _ _ _ _ E) in S1.
    assert (add s h' hd' = add (keep s h1) h' hd') as -> by reflexivity.
    rewrite <- K. split; [reflexivity|]. split; [now apply sim_add|].
    intros _ L. eapply leak_add; [|exact N1]. rewrite (keep_change _ _ _ _ E).
    destruct I1. eapply leak_change; eassumption.
  - (* discard *)
    apply wire_cases; [exact S|]. intros hd l E Ea R. unfold emit_discard.
    pose proof (repr_live B _ _ _ _ R (or_introl eq_refl)) as Le.
    destruct (free_spec _ _ Le) as (h' & -> & U). cbn [bind].
    apply step_drop_leaky with hd; auto.
    + eapply updated_trans_h; eauto. now left.
    + intro Fr. cbn [frees_all] in Fr. unfold kind_of in Ea.
      destruct (mask_ptr hd) as [mp|] eqn:Em; [destruct (Fr _ Ea)|].
      intros p Hp Hl. destruct U as (N1 & C1 & F1).
      destruct (Nat.eq_dec p (elems_ptr hd)) as [->|Hne]; [congruence|].
      rewrite F1 in Hl by exact Hne. destruct Hp as [Hp|Hp].
      * unfold ptrs in Hp. rewrite Em in Hp. destruct Hp as [Hp|[]]. congruence.
      * now rewrite Hw in Hl.
  - (* scan *)
    apply wire_cases; [exact S|]. intros hd l E Ea R. destruct F as (F1 & F2).
    pose proof (scan_spec B HB _ _ _ esz f accs Hw R (F1 _ _ Ea) F2) as C.
    destruct (full l) as [vs|]; [|now rewrite C].
    destruct C as (h' & hd' & -> & K & C). cbn [bind].
    destruct (scan_list f 0 vs accs) as [vs' accs']. cbn [fst snd] in *.
    rewrite <- K. now apply step_change with hd.
  - (* borrow *)
    apply borrow_cases; [exact S|]. intros hd mp l E Em K Ea R.
    pose proof (borrow_spec B HB _ _ _ _ i Hw R Em) as C.
    destruct (at_index l i) as [[v|]|]; [|now rewrite C|now rewrite C].
    destruct C as (h' & -> & C). cbn [bind]. rewrite <- K. now apply step_keep.
  - (* return *)
    apply borrow_cases; [exact S|]. intros hd mp l E Em K Ea R.
    pose proof (return_spec B HB _ _ _ _ i v Hw R Em) as C.
    destruct (at_index l i) as [[x|]|]; [now rewrite C| |now rewrite C].
    destruct C as (h' & -> & C). cbn [bind]. rewrite <- K. now apply step_keep.
  - (* discard_all_borrowed *)
    apply borrow_cases; [exact S|]. intros hd mp l E Em K Ea R.
    unfold emit_discard_all_borrowed.
    pose proof (check_all_borrowed_spec B HB _ _ _ _ Hw R Em) as C.
    destruct (forallb is_hole l); [|now rewrite C].
    destruct C as (h1 & -> & C). cbn [bind].
    destruct (free_both B HB h1 hd l (hwf_in_place _ _ _ _ _ _ C) (ip_repr _ _ _ _ _ _ C))
      as (h2 & h3 & -> & E3 & T & N3 & G & O).
    unfold free_mask in E3. rewrite Em in E3. cbn [bind]. rewrite E3. cbn [bind].
    destruct (in_place_free (mem s) hd h1 l h3 Hw C T N3 G O) as (T' & C').
    now apply step_drop_leaky with hd.
  - (* is_borrowed *)
    apply borrow_cases; [exact S|]. intros hd mp l E Em K Ea R.
    rewrite (is_borrowed_spec B HB _ _ _ _ i R Em).
    destruct (at_index l i) as [x|]; cbn [bind]; [|reflexivity].
    split; [reflexivity|]. split; [exact S|auto].
  - (* to_array *)
    apply borrow_cases; [exact S|]. intros hd mp l E Em K Ea R.
    pose proof (to_array_spec B HB _ _ _ Hw R) as C.
    destruct (full l) as [vs|]; [|now rewrite C].
    destruct C as (h' & hd' & -> & K' & T & R' & P). cbn [bind].
    split; [reflexivity|]. split; [|intros []].
    rewrite <- K'. apply (sim_change _ _ _ hd); auto.
  - (* from_array *)
    apply wire_cases; [exact S|]. intros hd l E Ea R.
    destruct (kind_of hd) eqn:K; [exact Logic.I|].
    assert (mask_ptr hd = None) as Em.
    { unfold kind_of in K. now destruct (mask_ptr hd). }
    pose proof (from_array_spec B HB _ _ _ Hw R Em) as C.
    destruct (emit_from_array B (mem s) hd) as [h' hd']. destruct C as (<- & C).
    now apply step_change with hd.
Qed.

(** How runs end. *)
Definition ends (r : res (@state V)) (r' : res (@arrays V)) : Prop :=
  match r, r' with
  | Ok s, Ok a => sim s a
  | Panic e, Panic e' => e = e'
  | Stuck, Stuck => True
  | _, _ => False
  end.

Lemma run_refines (p : @prog V) : forall s a, sim s a -> fits B p a ->
  fst (run B p s) = fst (spec_run p a) /\
  ends (snd (run B p s)) (snd (spec_run p a)).
Proof.
  induction p as [|i k IH]; intros s a S F; [now split|].
  cbn [run spec_run fits] in *. destruct F as (F & Fk).
  pose proof (step_refines i s a S F) as H. unfold step_ok in H.
  destruct (step B i s) as [[s' o]|e| |], (spec_step i a) as [[a' o']|e'| |];
    try contradiction; cbn [fst snd ends].
  - destruct H as (<- & S' & _). destruct (IH o s' a' S' Fk) as (H1 & H2).
    destruct (run B (k o) s'), (spec_run (k o) a'). cbn [fst snd] in *.
    split; [now f_equal|exact H2].
  - now split.
  - now split.
Qed.

Lemma run_no_leak (p : @prog V) : forall s a s', sim s a -> fits B p a ->
  all_free p a -> no_leak s -> snd (run B p s) = Ok s' -> no_leak s'.
Proof.
  induction p as [|i k IH]; intros s a s' S F A L E.
  - cbn in E. injection E as <-. exact L.
  - cbn [run fits all_free] in *. destruct F as (F & Fk), A as (A & Ak).
    pose proof (step_refines i s a S F) as H. unfold step_ok in H.
    destruct (step B i s) as [[s1 o]|e| |], (spec_step i a) as [[a' o']|e'| |];
      try contradiction; try discriminate.
    destruct H as (<- & S' & L'). apply (IH o s1 a'); auto.
    destruct (run B (k o) s1). exact E.
Qed.

Lemma sim_empty : sim empty_state [].
Proof.
  constructor; cbn.
  - intros p _. reflexivity.
  - reflexivity.
  - intros w hd H. destruct w; discriminate.
  - intros w H. destruct w; discriminate.
  - intros w w' hd hd' _ H. destruct w; discriminate.
Qed.

End Runs.
