(** Ordered maps as sorted association lists: stands for Rust's [BTreeMap].  Iteration order
    is list order.  The key order is passed as a comparison function. *)
From Coq Require Import List Bool Sorted.
Import ListNotations.

(** A comparison function is a total order. *)
Record total_cmp {K : Type} (cmp : K -> K -> comparison) : Prop := {
  cmp_eq : forall a b, cmp a b = Eq <-> a = b;
  cmp_opp : forall a b, cmp b a = CompOpp (cmp a b);
  cmp_trans : forall a b c, cmp a b = Lt -> cmp b c = Lt -> cmp a c = Lt
}.

Section BMap.
  Context {K V : Type} (cmp : K -> K -> comparison).

  Definition bmap := list (K * V).

  Fixpoint bm_get (k : K) (m : bmap) : option V :=
    match m with
    | [] => None
    | (k', v) :: m' =>
        match cmp k k' with Lt => None | Eq => Some v | Gt => bm_get k m' end
    end.

  Fixpoint bm_insert (k : K) (v : V) (m : bmap) : bmap :=
    match m with
    | [] => [(k, v)]
    | (k', v') :: m' =>
        match cmp k k' with
        | Lt => (k, v) :: m
        | Eq => (k', v) :: m'
        | Gt => (k', v') :: bm_insert k v m'
        end
    end.

  Fixpoint bm_remove (k : K) (m : bmap) : bmap :=
    match m with
    | [] => []
    | (k', v') :: m' =>
        match cmp k k' with
        | Lt => m
        | Eq => m'
        | Gt => (k', v') :: bm_remove k m'
        end
    end.

  Definition bm_sorted (m : bmap) : Prop := StronglySorted (fun a b => cmp (fst a) (fst b) = Lt) m.

  Hypothesis TC : total_cmp cmp.

  Lemma cmp_refl a : cmp a a = Eq.
  Proof. apply (cmp_eq _ TC). reflexivity. Qed.

  Lemma cmp_gt_lt a b : cmp a b = Gt <-> cmp b a = Lt.
  Proof. rewrite (cmp_opp _ TC a b). destruct (cmp a b); cbn; split; congruence. Qed.

  Lemma bm_insert_In k v m x : In x (bm_insert k v m) -> fst x = k \/ In x m.
  Proof.
    induction m as [|[k' v'] m IH]; cbn.
    - intros [<-|[]]; auto.
    - destruct (cmp k k') eqn:E; cbn.
      + intros [<-|H]; auto. left. cbn. symmetry; apply (cmp_eq _ TC); assumption.
      + intros [<-|H]; auto.
      + intros [<-|H]; auto. destruct (IH H); auto.
  Qed.

  Lemma bm_insert_sorted k v m : bm_sorted m -> bm_sorted (bm_insert k v m).
  Proof.
    unfold bm_sorted. induction m as [|[k' v'] m IH]; cbn; intros H.
    - constructor; constructor.
    - inversion H as [|? ? Hs Hf]; subst. destruct (cmp k k') eqn:E.
      + constructor; [assumption|]. exact Hf.
      + constructor; [assumption|]. constructor; [assumption|].
        eapply Forall_impl; [|exact Hf]. intros [k2 v2]; cbn. intros. eapply (cmp_trans _ TC); eassumption.
      + constructor; [auto|]. apply Forall_forall. intros [k2 v2] Hin.
        destruct (bm_insert_In _ _ _ _ Hin) as [Hk|Hin'].
        * cbn in *; subst. apply cmp_gt_lt; assumption.
        * rewrite Forall_forall in Hf. exact (Hf _ Hin').
  Qed.

  Lemma bm_get_lt k m : bm_sorted m -> Forall (fun x => cmp k (fst x) = Lt) m -> bm_get k m = None.
  Proof. intros _ H. destruct m as [|[k' v'] m]; [reflexivity|]. inversion H; subst. cbn in *. rewrite H2. reflexivity. Qed.

  Lemma bm_get_In k v m : bm_sorted m -> (bm_get k m = Some v <-> In (k, v) m).
  Proof.
    unfold bm_sorted. induction m as [|[k' v'] m IH]; cbn; intros H.
    - split; [discriminate|contradiction].
    - inversion H as [|? ? Hs Hf]; subst. rewrite Forall_forall in Hf. destruct (cmp k k') eqn:E.
      + apply (cmp_eq _ TC) in E; subst. split.
        * intros Heq; injection Heq as <-; auto.
        * intros [Heq|Hin]; [injection Heq as <-; reflexivity|].
          specialize (Hf _ Hin). cbn in Hf. rewrite cmp_refl in Hf. discriminate.
      + split; [discriminate|]. intros [Heq|Hin].
        * injection Heq as <- <-. rewrite cmp_refl in E; discriminate.
        * specialize (Hf _ Hin). cbn in Hf. apply cmp_gt_lt in Hf. congruence.
      + rewrite (IH Hs). split; [auto|]. intros [Heq|Hin]; [|assumption].
        injection Heq as <- <-. rewrite cmp_refl in E; discriminate.
  Qed.

  Lemma bm_get_insert k v m k2 : bm_sorted m ->
    bm_get k2 (bm_insert k v m) = match cmp k2 k with Eq => Some v | _ => bm_get k2 m end.
  Proof.
    unfold bm_sorted. induction m as [|[k' v'] m IH]; cbn; intros H.
    - destruct (cmp k2 k); reflexivity.
    - inversion H as [|? ? Hs Hf]; subst. destruct (cmp k k') eqn:E; cbn.
      + apply (cmp_eq _ TC) in E; subst. destruct (cmp k2 k'); reflexivity.
      + destruct (cmp k2 k) eqn:E2; try reflexivity.
        rewrite ((cmp_trans _ TC) _ _ _ E2 E). reflexivity.
      + destruct (cmp k2 k') eqn:E2.
        * destruct (cmp k2 k) eqn:E3; try reflexivity.
          apply (cmp_eq _ TC) in E2, E3. subst. rewrite cmp_refl in E; discriminate.
        * destruct (cmp k2 k) eqn:E3; try reflexivity.
          apply (cmp_eq _ TC) in E3; subst. congruence.
        * apply IH; assumption.
  Qed.

  Lemma bm_remove_In k m x : In x (bm_remove k m) -> In x m.
  Proof.
    induction m as [|[k' v'] m IH]; cbn; [auto|]. destruct (cmp k k'); cbn; tauto.
  Qed.

  Lemma bm_remove_sorted k m : bm_sorted m -> bm_sorted (bm_remove k m).
  Proof.
    unfold bm_sorted. induction m as [|[k' v'] m IH]; cbn; intros H; [constructor|].
    inversion H as [|? ? Hs Hf]; subst. destruct (cmp k k'); [assumption|assumption|].
    constructor; [auto|]. rewrite Forall_forall in *. intros x Hx. apply Hf. eapply bm_remove_In; eassumption.
  Qed.

  Lemma bm_get_remove k m k2 : bm_sorted m ->
    bm_get k2 (bm_remove k m) = match cmp k2 k with Eq => None | _ => bm_get k2 m end.
  Proof.
    unfold bm_sorted. induction m as [|[k' v'] m IH]; cbn; intros H.
    - destruct (cmp k2 k); reflexivity.
    - inversion H as [|? ? Hs Hf]; subst. destruct (cmp k k') eqn:E; cbn.
      + apply (cmp_eq _ TC) in E; subst. destruct (cmp k2 k') eqn:E2.
        * apply bm_get_lt; [assumption|]. apply (cmp_eq _ TC) in E2; subst. assumption.
        * apply bm_get_lt; [assumption|]. eapply Forall_impl; [|exact Hf].
          intros [k3 v3]; cbn. intros. eapply (cmp_trans _ TC); eassumption.
        * reflexivity.
      + destruct (cmp k2 k) eqn:E2; try reflexivity. apply (cmp_eq _ TC) in E2; subst.
        rewrite E. reflexivity.
      + destruct (cmp k2 k') eqn:E2.
        * destruct (cmp k2 k) eqn:E3; try reflexivity.
          apply (cmp_eq _ TC) in E2, E3. subst. rewrite cmp_refl in E; discriminate.
        * destruct (cmp k2 k); reflexivity.
        * apply IH; assumption.
  Qed.
End BMap.
