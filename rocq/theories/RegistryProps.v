(** C09, C10: the extension registry. *)
From Coq Require Import List Bool NArith Permutation.
From Verif Require Import BMap RegistryModel RegistrySpec RegistryProofs.
Import ListNotations.

Section Statements.
  Context {E K V : Type} (name : E -> K) (ver : E -> V)
          (kcmp : K -> K -> comparison) (vlt : V -> V -> bool) (ext_ok : E -> bool).
  Notation run := (reg_run name ver kcmp vlt ext_ok).
  Notation get := (reg_get kcmp).

  (** A registry reached from a fresh or the static empty one by public calls. *)
  Definition reachable (r : registry) : Prop :=
    exists ops, r = run ops reg_default \/ r = run ops reg_EMPTY.

  Context (TC : total_cmp kcmp) (ST : strict_total vlt).

  Lemma reach_wf r : reachable r -> wf name kcmp r.
  Proof. intros [ops [-> | ->]]; apply run_wf; auto using default_wf, EMPTY_wf. Qed.
  Lemma reach_cache r : reachable r -> cache_ok ext_ok r.
  Proof. intros [ops [-> | ->]]; apply run_cache; auto using default_cache, EMPTY_cache. Qed.

  (** C09: every call changes the entry of each name exactly as the per-name rules say. *)
  Theorem registry_history_content : forall ops n,
    slot_run name ver vlt n None ops (get n (run ops reg_default)).
  Proof. intros. apply (get_run name ver kcmp vlt ext_ok TC ops reg_default n), default_wf. Qed.

  Theorem registry_rules_deterministic : forall n c o d d',
    slot_step name ver vlt n c o d -> slot_step name ver vlt n c o d' -> d = d'.
  Proof. intros n c o d d'. apply slot_step_det. Qed.

  (** C09: after any list of update-or-add offers the held extension is the first offer of the
      greatest version under that name. *)
  Theorem registry_keeps_greatest : forall (keq : forall a b : K, {a = b} + {a <> b}) es n,
    match get n (reg_new name ver kcmp vlt es) with
    | None => forall e, In e es -> name e <> n
    | Some e => name e = n /\
        first_greatest ver vlt (filter (fun x => if keq (name x) n then true else false) es) e
    end.
  Proof.
    intros keq es n. pose proof (new_get name ver kcmp vlt ext_ok TC ST keq es n) as H.
    destruct (get n (reg_new name ver kcmp vlt es)) as [e|].
    - split; [|exact H]. apply first_greatest_in, filter_In in H as [_ H].
      unfold named in H. destruct (keq (name e) n); [assumption|discriminate].
    - intros e Hin Hn. assert (In e (filter (named name keq n) es)) as F.
      { apply filter_In. split; [assumption|]. unfold named. destruct (keq (name e) n); congruence. }
      rewrite H in F. contradiction.
  Qed.

  (** C09: the version held does not depend on the order of the offers. *)
  Theorem registry_order_independent : forall (keq : forall a b : K, {a = b} + {a <> b}) es es' n,
    Permutation es es' ->
    option_map ver (get n (reg_new name ver kcmp vlt es))
    = option_map ver (get n (reg_new name ver kcmp vlt es')).
  Proof. intros keq es es' n. exact (order_independent name ver kcmp vlt ext_ok TC ST keq es es' n). Qed.

  (** C09: plain registration never overwrites; a conflict is reported with both versions and
      changes nothing. *)
  Theorem registry_register_never_overwrites : forall r e, reachable r ->
    match get (name e) r with
    | None => snd (reg_register name ver kcmp e r) = None /\
              get (name e) (fst (reg_register name ver kcmp e r)) = Some e
    | Some c => snd (reg_register name ver kcmp e r) = Some (ver c, ver e) /\
                fst (reg_register name ver kcmp e r) = r
    end.
  Proof. intros r e HR. exact (register_result name ver kcmp TC e r (reach_wf r HR)). Qed.

  (** C09: removal returns the entry, deletes it, and touches no other name. *)
  Theorem registry_remove_exact : forall r n, reachable r ->
    snd (reg_remove kcmp n r) = get n r /\
    get n (fst (reg_remove kcmp n r)) = None /\
    forall n', n' <> n -> get n' (fst (reg_remove kcmp n r)) = get n' r.
  Proof.
    intros r n HR. split; [reflexivity|].
    assert (H : forall n', slot_step name ver vlt n' (get n' r) (ORemove n) (get n' (fst (reg_remove kcmp n r)))).
    { intros n'. exact (get_step name ver kcmp vlt ext_ok TC (ORemove n) r n' (reach_wf r HR)). }
    split.
    - specialize (H n). remember (get n (fst (reg_remove kcmp n r))) as g. clear Heqg.
      inversion H; congruence.
    - intros n' Hn. specialize (H n'). remember (get n' (fst (reg_remove kcmp n r))) as g. clear Heqg.
      inversion H; congruence.
  Qed.

  (** C09: encoding as a list and decoding restores the registry content. *)
  Theorem registry_list_roundtrip : forall r, reachable r ->
    forall n, get n (reg_new name ver kcmp vlt (reg_values r)) = get n r.
  Proof.
    intros r HR n. unfold reg_get. rewrite (decode_encode name ver kcmp vlt TC r (reach_wf r HR)). reflexivity.
  Qed.

  (** C10: validation after any history answers for the present content: success iff every
      extension held passes its own check, otherwise the failing one with the least name. *)
  Theorem registry_validate_never_stale : forall r, reachable r ->
    match snd (reg_validate name ext_ok r) with
    | None => forall n e, get n r = Some e -> ext_ok e = true
    | Some n => exists e, get n r = Some e /\ ext_ok e = false /\
                  forall n' e', get n' r = Some e' -> ext_ok e' = false -> n' = n \/ kcmp n n' = Lt
    end.
  Proof. intros r HR. exact (validate_correct name kcmp ext_ok TC r (reach_wf r HR) (reach_cache r HR)). Qed.

  (** C10: validating changes no entry, and validating again gives the same answer. *)
  Theorem registry_validate_pure : forall r, reachable r ->
    (forall n, get n (fst (reg_validate name ext_ok r)) = get n r) /\
    snd (reg_validate name ext_ok (fst (reg_validate name ext_ok r))) = snd (reg_validate name ext_ok r).
  Proof.
    intros r _. unfold reg_validate, reg_get. destruct (valid r) eqn:Vr; cbn [fst snd].
    - rewrite Vr. auto.
    - destruct (find _ _) eqn:F; cbn [fst snd exts valid]; [rewrite Vr, F|]; auto.
  Qed.
End Statements.

Print Assumptions registry_history_content.
Print Assumptions registry_rules_deterministic.
Print Assumptions registry_keeps_greatest.
Print Assumptions registry_order_independent.
Print Assumptions registry_register_never_overwrites.
Print Assumptions registry_remove_exact.
Print Assumptions registry_list_roundtrip.
Print Assumptions registry_validate_never_stale.
Print Assumptions registry_validate_pure.

(** ** Instance: names and versions are numbers; an extension is (name, version, valid?). *)
Module RegistryExample.
  Definition ext := (N * N * bool)%type.
  Definition nm (e : ext) := fst (fst e).
  Definition vr (e : ext) := snd (fst e).
  Definition ok (e : ext) := snd e.

  Lemma TCN : total_cmp N.compare.
  Proof.
    constructor; [apply N.compare_eq_iff|intros; apply N.compare_antisym|].
    intros a b c H1 H2. rewrite N.compare_lt_iff in *. eapply N.lt_trans; eassumption.
  Qed.
  Lemma STN : strict_total N.ltb.
  Proof.
    constructor; [apply N.ltb_irrefl| |].
    - intros a b c H1 H2. rewrite N.ltb_lt in *. eapply N.lt_trans; eassumption.
    - intros a b H1 H2. rewrite N.ltb_ge in *. apply N.le_antisymm; assumption.
  Qed.

  Definition hist : list (reg_op (E:=ext) (K:=N)) :=
    [OUpdate (7, 1, true); OValidate; OUpdate (7, 3, false); OUpdate (7, 2, true); ORegister (7, 9, true);
     OUpdate (2, 1, true); OUpdate (2, 1, false)]%N.
  Definition reg := reg_run nm vr N.compare N.ltb ok hist reg_default.

  Example hist_reachable : reachable nm vr N.compare N.ltb ok reg.
  Proof. exists hist. left. reflexivity. Qed.
  Example hist_content : reg_get N.compare 7%N reg = Some (7, 3, false)%N /\
                         reg_get N.compare 2%N reg = Some (2, 1, true)%N.
  Proof. split; reflexivity. Qed.
  (* validated before the faulty version arrived: the fault is still reported *)
  Example hist_validate : snd (reg_validate nm ok reg) = Some 7%N.
  Proof. reflexivity. Qed.
  Example conflict : snd (reg_register nm vr N.compare (7, 9, true)%N reg) = Some (3, 9)%N.
  Proof. reflexivity. Qed.
  Example roundtrip : exts (reg_new nm vr N.compare N.ltb (reg_values reg)) = exts reg.
  Proof. reflexivity. Qed.
End RegistryExample.
