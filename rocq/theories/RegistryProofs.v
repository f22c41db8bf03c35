From Coq Require Import List Bool Permutation.
From Verif Require Import BMap RegistryModel RegistrySpec.
Import ListNotations.

Section Proofs.
  Context {E K V : Type}.
  Context (name : E -> K) (ver : E -> V).
  Context (kcmp : K -> K -> comparison) (vlt : V -> V -> bool) (ext_ok : E -> bool).
  Context (TC : total_cmp kcmp) (ST : strict_total vlt).

  Notation registry := (@registry E K).
  Notation get := (reg_get kcmp).
  Notation step := (reg_step name ver kcmp vlt ext_ok).
  Notation run := (reg_run name ver kcmp vlt ext_ok).
  Notation update := (reg_update name ver kcmp vlt).

  Lemma kcmp_ne a b : a <> b -> kcmp a b <> Eq.
  Proof. intros H E0. apply H, (cmp_eq _ TC), E0. Qed.

  Definition wf (r : registry) : Prop :=
    bm_sorted kcmp (exts r) /\ forall k e, In (k, e) (exts r) -> name e = k.

  Lemma insert_wf e m : bm_sorted kcmp m -> (forall k e', In (k, e') m -> name e' = k) ->
    bm_sorted kcmp (bm_insert kcmp (name e) e m) /\
    forall k e', In (k, e') (bm_insert kcmp (name e) e m) -> name e' = k.
  Proof.
    intros Hs Hn. split; [apply bm_insert_sorted; assumption|].
    intros k e' Hin. apply (bm_get_In kcmp TC) in Hin; [|apply bm_insert_sorted; assumption].
    rewrite (bm_get_insert kcmp TC) in Hin by assumption.
    destruct (kcmp k (name e)) eqn:C.
    - injection Hin as <-. apply (cmp_eq _ TC) in C. auto.
    - apply (bm_get_In kcmp TC) in Hin; auto.
    - apply (bm_get_In kcmp TC) in Hin; auto.
  Qed.

  Lemma update_wf e r : wf r -> wf (update e r).
  Proof.
    intros [Hs Hn]. unfold reg_update.
    destruct (bm_get kcmp (name e) (exts r)) as [prev|]; [destruct (vlt _ _)|];
      unfold wf; cbn [exts]; auto using insert_wf.
  Qed.

  Lemma step_wf o r : wf r -> wf (step r o).
  Proof.
    intros Hw. destruct o as [e|e|n|es| |]; cbn [reg_step].
    - unfold reg_register. destruct (bm_get kcmp (name e) (exts r)); [exact Hw|].
      destruct Hw. unfold wf; cbn [fst exts]. apply insert_wf; assumption.
    - apply update_wf; assumption.
    - destruct Hw as [Hs Hn]. unfold wf; cbn. split; [apply bm_remove_sorted; assumption|].
      intros k e Hin. apply Hn. eapply bm_remove_In; eassumption.
    - unfold reg_extend. revert r Hw. induction es as [|e es IH]; intros r Hw; cbn; [assumption|].
      apply IH, update_wf, Hw.
    - unfold reg_validate. destruct (valid r); [assumption|]. destruct (find _ _); assumption.
    - assumption.
  Qed.

  Lemma run_wf ops r : wf r -> wf (run ops r).
  Proof.
    revert r; induction ops as [|o ops IH]; intros r Hw; cbn; [assumption|]. apply IH, step_wf, Hw.
  Qed.

  Lemma default_wf : wf reg_default.
  Proof. split; [constructor|intros k e []]. Qed.
  Lemma EMPTY_wf : wf reg_EMPTY.
  Proof. split; [constructor|intros k e []]. Qed.

  (** ** Refinement to the per-name specification *)

  Lemma get_update e r n : wf r ->
    slot_step name ver vlt n (get n r) (OUpdate e) (get n (update e r)).
  Proof.
    intros [Hs Hn]. unfold reg_get, reg_update.
    destruct (kcmp n (name e)) eqn:C.
    - apply (cmp_eq _ TC) in C; subst n.
      destruct (bm_get kcmp (name e) (exts r)) as [prev|] eqn:G; [destruct (vlt _ _) eqn:L|]; cbn [exts].
      + rewrite (bm_get_insert kcmp TC), (cmp_refl _ TC) by assumption. constructor; auto.
      + rewrite G. constructor; auto.
      + rewrite (bm_get_insert kcmp TC), (cmp_refl _ TC) by assumption. constructor; auto.
    - assert (name e <> n) by (intros <-; rewrite (cmp_refl _ TC) in C; discriminate).
      destruct (bm_get kcmp (name e) (exts r)) as [prev|] eqn:G; [destruct (vlt _ _) eqn:L|]; cbn [exts];
        rewrite ?(bm_get_insert kcmp TC), ?C by assumption; apply SS_up_other; assumption.
    - assert (name e <> n) by (intros <-; rewrite (cmp_refl _ TC) in C; discriminate).
      destruct (bm_get kcmp (name e) (exts r)) as [prev|] eqn:G; [destruct (vlt _ _) eqn:L|]; cbn [exts];
        rewrite ?(bm_get_insert kcmp TC), ?C by assumption; apply SS_up_other; assumption.
  Qed.

  Lemma get_step o r n : wf r -> slot_step name ver vlt n (get n r) o (get n (step r o)).
  Proof.
    intros Hw. pose proof Hw as [Hs Hn]. destruct o as [e|e|k|es| |]; cbn [reg_step].
    - unfold reg_get, reg_register. destruct (kcmp n (name e)) eqn:C.
      + apply (cmp_eq _ TC) in C; subst n.
        destruct (bm_get kcmp (name e) (exts r)) as [prev|] eqn:G; cbn [fst exts].
        * rewrite G. constructor; auto.
        * rewrite (bm_get_insert kcmp TC), (cmp_refl _ TC) by assumption. constructor; auto.
      + assert (name e <> n) by (intros <-; rewrite (cmp_refl _ TC) in C; discriminate).
        destruct (bm_get kcmp (name e) (exts r)) as [prev|] eqn:G; cbn [fst exts];
          rewrite ?(bm_get_insert kcmp TC), ?C by assumption; apply SS_reg_other; assumption.
      + assert (name e <> n) by (intros <-; rewrite (cmp_refl _ TC) in C; discriminate).
        destruct (bm_get kcmp (name e) (exts r)) as [prev|] eqn:G; cbn [fst exts];
          rewrite ?(bm_get_insert kcmp TC), ?C by assumption; apply SS_reg_other; assumption.
    - apply get_update; assumption.
    - unfold reg_get, reg_remove; cbn [fst exts]. rewrite (bm_get_remove kcmp TC) by assumption.
      destruct (kcmp n k) eqn:C.
      + apply (cmp_eq _ TC) in C; subst. constructor.
      + apply SS_remove_other. intros ->. rewrite (cmp_refl _ TC) in C; discriminate.
      + apply SS_remove_other. intros ->. rewrite (cmp_refl _ TC) in C; discriminate.
    - clear Hs Hn. revert r Hw. induction es as [|e es IH]; intros r Hw; [constructor|].
      econstructor; [apply get_update; assumption|]. apply (IH (update e r)). apply update_wf; assumption.
    - unfold reg_get, reg_validate. destruct (valid r); [constructor|]. destruct (find _ _); constructor.
    - constructor.
  Qed.

  Lemma get_run ops r n : wf r -> slot_run name ver vlt n (get n r) ops (get n (run ops r)).
  Proof.
    revert r; induction ops as [|o ops IH]; intros r Hw; cbn; [constructor|].
    econstructor; [apply get_step; assumption|]. apply IH, step_wf, Hw.
  Qed.

  (** The specification is deterministic, so it pins the content down. *)
  Lemma slot_step_det n c o d d' :
    slot_step name ver vlt n c o d -> slot_step name ver vlt n c o d' -> d = d'.
  Proof.
    intros H; revert d'. induction H; intros d' H'; inversion H'; subst; try congruence.
    match goal with H1 : slot_step _ _ _ n c (OUpdate e) ?x |- _ =>
      first [constr_eq x d; fail 1 | rewrite <- (IHslot_step1 _ H1) in *] end. auto.
  Qed.

  (** ** Histories of offers: the first of the greatest version wins *)

  Context (keq : forall a b : K, {a = b} + {a <> b}).
  Definition named (n : K) (e : E) : bool := if keq (name e) n then true else false.

  Lemma vlt_neg_trans a b c : vlt b a = false -> vlt c b = false -> vlt c a = false.
  Proof.
    intros H1 H2. destruct (vlt c a) eqn:H; [|reflexivity].
    destruct (vlt a b) eqn:L.
    - rewrite ((st_trans _ ST) _ _ _ H L) in H2. discriminate.
    - rewrite ((st_total _ ST) _ _ L H1) in *. congruence.
  Qed.

  Lemma vlt_lt_le a b c : vlt a b = true -> vlt c b = false -> vlt a c = true.
  Proof.
    intros H1 H2. destruct (vlt a c) eqn:H; [reflexivity|].
    destruct (vlt b c) eqn:L.
    - rewrite ((st_trans _ ST) _ _ _ H1 L) in H. discriminate.
    - rewrite ((st_total _ ST) _ _ L H2) in *. congruence.
  Qed.

  Lemma extend_get es r n : wf r ->
    match get n (reg_extend name ver kcmp vlt es r) with
    | None => get n r = None /\ filter (named n) es = []
    | Some e => first_greatest ver vlt
                  (match get n r with Some c => [c] | None => [] end ++ filter (named n) es) e
    end.
  Proof.
    revert r. induction es as [|e es IH] using rev_ind; intros r Hw.
    - cbn. destruct (get n r) as [c|]; [|auto]. exists [], []. repeat split; intros x [].
    - unfold reg_extend. rewrite fold_left_app. cbn [fold_left].
      change (fold_left _ es r) with (reg_extend name ver kcmp vlt es r).
      specialize (IH r Hw). set (r1 := reg_extend name ver kcmp vlt es r) in *.
      assert (Hw1 : wf r1) by (apply (step_wf (OExtend es)); assumption).
      rewrite filter_app. cbn [filter]. unfold named at 2 4.
      pose proof (get_update e r1 n Hw1) as Hst.
      remember (get n (update e r1)) as g' eqn:Hg'. remember (get n r1) as g eqn:Hg. clear Hg Hg'.
      destruct (keq (name e) n) as [Hk|Hk]; inversion Hst; subst; try congruence.
      + (* free *)
        destruct IH as [-> ->]. exists [], []. repeat split; intros x [].
      + (* newer *)
        destruct IH as (bef & aft & Heq & Hb & Ha).
        exists (bef ++ c :: aft), []. rewrite app_assoc, Heq. split; [reflexivity|].
        split; [|intros x []]. intros x Hin. apply in_app_or in Hin as [Hin|[<-|Hin]].
        * eapply (st_trans _ ST); [apply Hb; assumption|assumption].
        * assumption.
        * specialize (Ha x Hin). destruct (vlt (ver x) (ver e)) eqn:L; [reflexivity|].
          exfalso. assert (vlt (ver c) (ver e) = false) by exact (vlt_neg_trans _ _ _ L Ha). congruence.
      + (* older *)
        destruct IH as (bef & aft & Heq & Hb & Ha).
        exists bef, (aft ++ [e]). rewrite app_assoc, Heq, <- app_assoc. split; [reflexivity|].
        split; [assumption|]. intros x Hin. apply in_app_or in Hin as [Hin|[<-|[]]]; auto.
      + (* other name *)
        rewrite app_nil_r. exact IH.
  Qed.

  Lemma new_get es n :
    match get n (reg_new name ver kcmp vlt es) with
    | None => filter (named n) es = []
    | Some e => first_greatest ver vlt (filter (named n) es) e
    end.
  Proof.
    pose proof (extend_get es reg_default n default_wf) as H. unfold reg_new.
    destruct (get n _); [exact H|apply H].
  Qed.

  Lemma first_greatest_in l e : first_greatest ver vlt l e -> In e l.
  Proof. intros (b & a & -> & _). apply in_elt. Qed.

  Lemma first_greatest_max l e x : first_greatest ver vlt l e -> In x l -> vlt (ver e) (ver x) = false.
  Proof.
    intros (b & a & -> & Hb & Ha) Hin. apply in_app_or in Hin as [Hin|[<-|Hin]].
    - specialize (Hb x Hin). destruct (vlt (ver e) (ver x)) eqn:L; [|reflexivity].
      pose proof (st_irrefl _ ST (ver x)) as Hi. rewrite ((st_trans _ ST) _ _ _ Hb L) in Hi. discriminate.
    - apply (st_irrefl _ ST).
    - auto.
  Qed.

  Lemma filter_perm {A} (f : A -> bool) l l' : Permutation l l' -> Permutation (filter f l) (filter f l').
  Proof.
    induction 1; cbn; repeat match goal with |- context [if ?b then _ else _] => destruct b end;
      eauto using perm_skip, perm_swap, perm_trans.
  Qed.

  Lemma order_independent es es' n : Permutation es es' ->
    option_map ver (get n (reg_new name ver kcmp vlt es))
    = option_map ver (get n (reg_new name ver kcmp vlt es')).
  Proof.
    intros HP. pose proof (new_get es n) as H1. pose proof (new_get es' n) as H2.
    pose proof (filter_perm (named n) _ _ HP) as HPf.
    destruct (get n (reg_new name ver kcmp vlt es)) as [e|], (get n (reg_new name ver kcmp vlt es')) as [e'|]; cbn.
    - f_equal. pose proof (first_greatest_in _ _ H1). pose proof (first_greatest_in _ _ H2).
      apply (st_total _ ST).
      + eapply first_greatest_max; [exact H1|]. eapply Permutation_in; [apply Permutation_sym; exact HPf|assumption].
      + eapply first_greatest_max; [exact H2|]. eapply Permutation_in; [exact HPf|assumption].
    - rewrite H2 in HPf. apply Permutation_sym, Permutation_nil in HPf. rewrite HPf in H1.
      apply first_greatest_in in H1. contradiction.
    - rewrite H1 in HPf. apply Permutation_nil in HPf. rewrite HPf in H2.
      apply first_greatest_in in H2. contradiction.
    - reflexivity.
  Qed.

  (** ** Return values *)
  Lemma register_result e r : wf r ->
    match get (name e) r with
    | None => snd (reg_register name ver kcmp e r) = None /\
              get (name e) (fst (reg_register name ver kcmp e r)) = Some e
    | Some c => snd (reg_register name ver kcmp e r) = Some (ver c, ver e) /\
                fst (reg_register name ver kcmp e r) = r
    end.
  Proof.
    intros [Hs Hn]. unfold reg_get, reg_register.
    destruct (bm_get kcmp (name e) (exts r)) eqn:G; cbn; [auto|].
    split; [reflexivity|]. rewrite (bm_get_insert kcmp TC), (cmp_refl _ TC) by assumption. reflexivity.
  Qed.

  Lemma remove_result n (r : registry) : snd (reg_remove kcmp n r) = get n r.
  Proof. reflexivity. Qed.

  (** ** Validity cache *)
  Definition cache_ok (r : registry) : Prop := valid r = true -> forall k e, In (k, e) (exts r) -> ext_ok e = true.

  Lemma find_none {A} (f : A -> bool) l : find f l = None -> forall x, In x l -> f x = false.
  Proof. apply find_none. Qed.

  Lemma step_cache o r : cache_ok r -> cache_ok (step r o).
  Proof.
    intros Hc. destruct o as [e|e|n|es| |]; cbn [reg_step].
    - unfold reg_register. destruct (bm_get _ _ _); [exact Hc|]. intros H; discriminate H.
    - unfold reg_update. destruct (bm_get _ _ _); [destruct (vlt _ _)|]; intros H; discriminate H.
    - intros H; discriminate H.
    - destruct es as [|e es]; [exact Hc|].
      intros H. exfalso. assert (G : forall l r0, valid r0 = false ->
        valid (fold_left (fun r e => update e r) l r0) = false).
      { induction l as [|x l IH]; intros r0 H0; cbn; [assumption|]. apply IH.
        unfold reg_update. destruct (bm_get _ _ _); [destruct (vlt _ _)|]; reflexivity. }
      unfold reg_extend in H. cbn [fold_left] in H. rewrite G in H; [discriminate|].
      unfold reg_update. destruct (bm_get _ _ _); [destruct (vlt _ _)|]; reflexivity.
    - unfold reg_validate. destruct (valid r) eqn:Vr; [exact Hc|].
      destruct (find _ _) eqn:F; [exact Hc|]. intros _ k e Hin. cbn in Hin.
      pose proof (find_none _ _ F _ Hin) as Hx. cbn in Hx. apply negb_false_iff in Hx. exact Hx.
    - exact Hc.
  Qed.

  Lemma run_cache ops r : cache_ok r -> cache_ok (run ops r).
  Proof.
    revert r; induction ops as [|o ops IH]; intros r Hw; cbn; [assumption|]. apply IH, step_cache, Hw.
  Qed.

  Lemma validate_correct r : wf r -> cache_ok r ->
    match snd (reg_validate name ext_ok r) with
    | None => forall n e, get n r = Some e -> ext_ok e = true
    | Some n => exists e, get n r = Some e /\ ext_ok e = false /\
                  forall n' e', get n' r = Some e' -> ext_ok e' = false -> n' = n \/ kcmp n n' = Lt
    end.
  Proof.
    intros [Hs Hn] Hc. unfold reg_validate. destruct (valid r) eqn:Vr; cbn [snd].
    - intros n e G. apply (bm_get_In kcmp TC) in G; [|assumption]. exact (Hc Vr _ _ G).
    - destruct (find _ _) as [[k e]|] eqn:F; cbn [snd].
      + pose proof (find_some _ _ F) as [Hin Hb]. cbn in Hb. apply negb_true_iff in Hb.
        rewrite (Hn _ _ Hin). exists e. split; [apply (bm_get_In kcmp TC); assumption|]. split; [assumption|].
        intros n' e' G Hbad. apply (bm_get_In kcmp TC) in G; [|assumption].
        clear - TC Hs F G Hbad. unfold bm_sorted in Hs. revert Hs F G.
        induction (exts r) as [|[k1 e1] m IH]; intros Hs F G; [contradiction|].
        inversion Hs as [|? ? Hs' Hf]; subst. cbn [find] in F. cbn [snd] in F.
        destruct (negb (ext_ok e1)) eqn:B.
        * injection F as -> ->. destruct G as [G|G]; [injection G as <- <-; auto|].
          right. rewrite Forall_forall in Hf. exact (Hf _ G).
        * destruct G as [G|G]; [|auto]. injection G as <- <-. rewrite Hbad in B. discriminate.
      + intros n e G. apply (bm_get_In kcmp TC) in G; [|assumption].
        pose proof (find_none _ _ F _ G) as Hx. cbn in Hx. apply negb_false_iff in Hx. exact Hx.
  Qed.

  (** ** The list encoding (serialise, then [new]) *)
  Lemma extend_sorted m : forall acc,
    bm_sorted kcmp (acc ++ m) -> (forall k e, In (k, e) m -> name e = k) ->
    forall b, exists b', reg_extend name ver kcmp vlt (map snd m) (mk_reg acc b) = mk_reg (acc ++ m) b'.
  Proof.
    induction m as [|[k e] m IH]; intros acc Hs Hn b.
    - exists b. rewrite app_nil_r. reflexivity.
    - assert (Hk : name e = k) by (apply Hn; left; reflexivity).
      assert (Hlt : forall x, In x acc -> kcmp (fst x) k = Lt).
      { clear - Hs TC. unfold bm_sorted in Hs. induction acc as [|a acc IH]; intros x Hin; [contradiction|].
        inversion Hs as [|? ? Hs' Hf]; subst. destruct Hin as [<-|Hin]; [|auto].
        rewrite Forall_forall in Hf. apply (Hf (k, e)), in_elt. }
      assert (G : bm_get kcmp k acc = None /\ bm_insert kcmp k e acc = acc ++ [(k, e)]).
      { clear - Hlt TC. induction acc as [|[k1 e1] acc IH]; [auto|]. cbn.
        pose proof (Hlt (k1, e1) (or_introl eq_refl)) as H1. cbn in H1.
        rewrite (cmp_opp _ TC k1 k), H1. cbn. destruct IH as [-> ->]; [|auto].
        intros x Hin; apply Hlt; right; exact Hin. }
      destruct G as [G1 G2]. unfold reg_extend. cbn [map fold_left snd].
      unfold reg_update at 2. cbn [exts]. rewrite Hk, G1, G2.
      destruct (IH (acc ++ [(k, e)])) with (b := false) as [b' Hb'].
      + rewrite <- app_assoc. exact Hs.
      + intros k' e' Hin. apply Hn. right. exact Hin.
      + exists b'. unfold reg_extend in Hb'. rewrite Hb', <- app_assoc. reflexivity.
  Qed.

  Lemma decode_encode r : wf r ->
    exts (reg_new name ver kcmp vlt (reg_values r)) = exts r.
  Proof.
    intros [Hs Hn]. destruct (extend_sorted (exts r) [] Hs Hn false) as [b' Hb'].
    unfold reg_new, reg_values, reg_default. rewrite Hb'. reflexivity.
  Qed.

  Lemma default_cache : cache_ok reg_default.
  Proof. intros H; discriminate H. Qed.
  Lemma EMPTY_cache : cache_ok reg_EMPTY.
  Proof. intros _ k e []. Qed.
End Proofs.
