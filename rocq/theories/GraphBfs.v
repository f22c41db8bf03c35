(** The breadth first order of a subtree. *)
From Coq Require Import List Bool NArith Arith Lia Permutation.
From Verif Require Import GraphModel GraphSpec GraphProofs GraphRemove Graphs.
Import ListNotations.

(** A finished traversal. *)
Inductive Bfs (kids : N -> list N) : list N -> list N -> Prop :=
| Bfs_nil : Bfs kids [] []
| Bfs_cons n q out : Bfs kids (q ++ kids n) out -> Bfs kids (n :: q) (n :: out).

Definition opt_is (o : option N) (p : N) : bool := match o with Some q => N.eqb q p | None => false end.
Lemma opt_is_iff : forall o p, opt_is o p = true <-> o = Some p.
Proof.
  intros [q|] p; cbn; [rewrite N.eqb_eq|]; split; congruence.
Qed.

Lemma Bfs_queue : forall kids q out, Bfs kids q out -> incl q out.
Proof.
  intros kids q out B. induction B as [|n q out B IH]; [apply incl_refl|]. intros m [<-|I]; [now left|].
  right. apply IH. apply in_app_iff. now left.
Qed.

Lemma Bfs_closed : forall kids q out, Bfs kids q out -> forall m c, In m out -> In c (kids m) -> In c out.
Proof.
  intros kids q out B. induction B as [|n q out B IH]; intros m c Im Ic; [destruct Im|].
  destruct Im as [<-|Im]; right; [|eauto]. apply (Bfs_queue _ _ _ B). apply in_app_iff. now right.
Qed.

Section Wf.
  Context {O M : Type}.
  Variable h : hugr O M.
  Hypothesis W : wf h.

  Lemma filter_kids : forall n p, filter (fun c => opt_is (h_parent h c) p) (h_kids h n) = if N.eqb n p then h_kids h n else [].
  Proof.
    intros n p. destruct (N.eqb_spec n p) as [<-|Ne].
    - assert (G : forall l, incl l (h_kids h n) -> filter (fun c => opt_is (h_parent h c) n) l = l).
      { induction l as [|c l IH]; intros I; [reflexivity|]. cbn [filter].
        assert (E : h_parent h c = Some n) by (apply (wf_kids h W); apply I; now left).
        rewrite (proj2 (opt_is_iff _ _) E). f_equal. apply IH. intros x X. apply I. now right. }
      apply G, incl_refl.
    - assert (G : forall l, incl l (h_kids h n) -> filter (fun c => opt_is (h_parent h c) p) l = []).
      { induction l as [|c l IH]; intros I; [reflexivity|]. cbn [filter].
        assert (E : h_parent h c = Some n) by (apply (wf_kids h W); apply I; now left).
        destruct (opt_is (h_parent h c) p) eqn:X; [apply opt_is_iff in X; congruence|].
        apply IH. intros x Ix. apply I. now right. }
      apply G, incl_refl.
  Qed.

  (** The children of a visited node appear in their order. *)
  Lemma Bfs_filter : forall q out, Bfs (h_kids h) q out -> NoDup out -> forall p,
    filter (fun c => opt_is (h_parent h c) p) out =
    filter (fun c => opt_is (h_parent h c) p) q ++ (if memN p out then h_kids h p else []).
  Proof.
    intros q out B. induction B as [|n q out B IH]; intros D p; [reflexivity|].
    inversion D as [|? ? Nn D']; subst. cbn [filter]. rewrite (IH D' p). rewrite filter_app, filter_kids.
    cbn [memN existsb]. fold (memN p out). destruct (N.eqb_spec n p) as [->|Ne].
    - rewrite N.eqb_refl. cbn [orb]. apply memN_false in Nn. rewrite Nn, app_nil_r.
      destruct (opt_is (h_parent h p) p); reflexivity.
    - rewrite (proj2 (N.eqb_neq p n)) by congruence. cbn [orb]. rewrite app_nil_r.
      destruct (opt_is (h_parent h n) p); reflexivity.
  Qed.

  (** Parents come before their children. *)
  Lemma Bfs_before : forall q out, Bfs (h_kids h) q out -> NoDup out -> forall p c, In p out -> h_parent h c = Some p ->
    ~ In c q -> before out p c.
  Proof.
    intros q out B. induction B as [|n q out B IH]; intros D p c Ip Ec Nq; [destruct Ip|].
    inversion D as [|? ? Nn D']; subst. destruct Ip as [->|Ip].
    - apply before_head. apply (Bfs_queue _ _ _ B). apply in_app_iff. right. now apply (wf_kids h W).
    - apply before_cons. apply IH; auto. rewrite in_app_iff. intros [I|I]; [apply Nq; now right|].
      apply (wf_kids h W) in I. assert (n = p) by congruence. subst. contradiction.
  Qed.

  Lemma bfs_done : forall n, In n (h_nodes h) -> forall fuel R q, sweep h n R q -> length (h_nodes h) <= fuel + length R ->
    Bfs (h_kids h) q (bfs (h_kids h) fuel q) /\ NoDup (R ++ bfs (h_kids h) fuel q) /\
    (forall m, In m (R ++ bfs (h_kids h) fuel q) <-> up (h_parent h) m n).
  Proof.
    intros n In_. induction fuel as [|fuel IH]; intros R q S L.
    - destruct q as [|x q].
      + cbn. rewrite app_nil_r. split; [constructor|]. split.
        * pose proof (sw_nodup _ _ _ _ S) as D. now rewrite app_nil_r in D.
        * now apply sweep_done.
      + exfalso. assert (X : length (R ++ x :: q) <= length (h_nodes h)).
        { apply NoDup_incl_length; [apply (sw_nodup _ _ _ _ S)|]. intros m I. exact (sweep_live h W n R (x :: q) In_ S m I). }
        rewrite app_length in X. cbn [length] in X. lia.
    - destruct q as [|x q].
      + cbn. rewrite app_nil_r. split; [constructor|]. split.
        * pose proof (sw_nodup _ _ _ _ S) as D. now rewrite app_nil_r in D.
        * now apply sweep_done.
      + cbn [bfs]. destruct (IH (x :: R) (q ++ h_kids h x)) as (A & B & C).
        * now apply sweep_step.
        * cbn [length]. lia.
        * split; [now constructor|]. split.
          -- apply (Permutation_NoDup (Permutation_middle R (bfs (h_kids h) fuel (q ++ h_kids h x)) x)). exact B.
          -- intros m. rewrite <- C. cbn [app In]. rewrite !in_app_iff. cbn [In]. tauto.
  Qed.

  Lemma descendants_spec : forall n, In n (h_nodes h) ->
    Bfs (h_kids h) [n] (descendants h n) /\ NoDup (descendants h n) /\
    (forall m, In m (descendants h n) <-> up (h_parent h) m n).
  Proof.
    intros n In_. unfold descendants. destruct (h_nodes h) as [|z zs] eqn:Z; [destruct In_|]. rewrite <- Z in *.
    assert (Len : length (h_nodes h) = S (length zs)) by (rewrite Z; reflexivity). rewrite Len. cbn [bfs app].
    destruct (bfs_done n In_ (length zs) [n] (h_kids h n) (remove_first_sweep h W n In_)) as (A & B & C).
    { cbn [length]. lia. }
    split; [constructor; exact A|]. split; [exact B|exact C].
  Qed.

  Lemma descendants_kids : forall n p, In n (h_nodes h) -> up (h_parent h) p n ->
    filter (fun c => opt_is (h_parent h c) p) (descendants h n) = h_kids h p.
  Proof.
    intros n p In_ U. destruct (descendants_spec n In_) as (B & D & I). rewrite (Bfs_filter _ _ B D p).
    apply I in U. pose proof U as Ip. apply memN_iff in U. rewrite U. cbn [filter].
    destruct (opt_is (h_parent h n) p) eqn:E; [|reflexivity]. exfalso. apply opt_is_iff in E.
    apply (no_cycle h W n p E). now apply I.
  Qed.

  Lemma descendants_before : forall n p c, In n (h_nodes h) -> up (h_parent h) p n -> h_parent h c = Some p ->
    before (descendants h n) p c.
  Proof.
    intros n p c In_ U E. destruct (descendants_spec n In_) as (B & D & I).
    apply (Bfs_before _ _ B D); [now apply I|exact E|]. intros [<-|[]]. exact (no_cycle h W n p E U).
  Qed.

  (** All nodes, from the root. *)
  Lemma canonical_spec : NoDup (descendants h (h_root h)) /\ (forall m, In m (descendants h (h_root h)) <-> In m (h_nodes h)) /\
    Permutation (descendants h (h_root h)) (h_nodes h).
  Proof.
    destruct (descendants_spec (h_root h) (wf_root h W)) as (B & D & I).
    assert (X : forall m, In m (descendants h (h_root h)) <-> In m (h_nodes h)).
    { intros m. rewrite I. split; [|apply (wf_reach h W)]. intros U. inversion U as [n|n p a E _]; subst.
      - apply (wf_root h W).
      - apply (wf_parent_live h W m p E). }
    split; [exact D|]. split; [exact X|]. apply NoDup_Permutation; [exact D|apply (wf_nodup h W)|exact X].
  Qed.

  Lemma canonical_head : exists l, descendants h (h_root h) = h_root h :: l.
  Proof.
    unfold descendants. destruct (h_nodes h) as [|z zs] eqn:Z.
    - pose proof (wf_root h W) as R. now rewrite Z in R.
    - cbn [length bfs]. eauto.
  Qed.
End Wf.
