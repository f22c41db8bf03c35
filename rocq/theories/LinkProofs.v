(** Proofs about linking: after the insertion. *)
From Coq Require Import List Bool NArith Arith Lia Permutation.
From Verif Require Import GraphModel GraphSpec GraphProofs GraphRemove InsertModel InsertSpec InsertProofs InsertTree InsertForest LinkModel LinkSpec LinkSwap.
Import ListNotations.

Definition rho_of (ps : list (N * N)) (x : N) : N := fold_left (fun y p => subst1 (fst p) (snd p) y) ps x.

Lemma rho_app : forall a b x, rho_of (a ++ b) x = rho_of b (rho_of a x).
Proof. intros a b x. unfold rho_of. apply fold_left_app. Qed.
Lemma rho_other : forall ps x, ~ In x (map fst ps) -> rho_of ps x = x.
Proof.
  induction ps as [|[o n] ps IH]; intros x N_; [reflexivity|]. cbn [map fst] in N_. unfold rho_of. cbn [fold_left fst snd]. unfold subst1 at 2.
  destruct (N.eqb_spec x o) as [->|Ne]; [exfalso; apply N_; now left|]. apply IH. intros I. apply N_. now right.
Qed.
Lemma rho_lookup : forall ps, (forall o n, In (o, n) ps -> ~ In n (map fst ps)) -> forall x,
  rho_of ps x = match lookup ps x with Some n => n | None => x end.
Proof.
  induction ps as [|[o n] ps IH]; intros H x; [reflexivity|]. unfold rho_of. cbn [fold_left fst snd lookup]. unfold subst1 at 2. rewrite (N.eqb_sym o x).
  destruct (N.eqb_spec x o) as [->|Ne].
  - apply rho_other. intros I. apply (H o n (or_introl eq_refl)). now right.
  - apply IH. intros a b I J. apply (H a b (or_intror I)). now right.
Qed.

Section Swaps.
  Context {O M : Type}.
  Variable o_default : O.
  Notation hugr := (hugr O M).

  Fixpoint swap_all (h : hugr) (ps : list (N * N)) : option hugr :=
    match ps with
    | [] => Some h
    | (o, n) :: ps => match replace_static_src o_default h o n with Some h => swap_all h ps | None => None end
    end.

  Lemma swap_all_app : forall a b h, swap_all h (a ++ b) = match swap_all h a with Some h => swap_all h b | None => None end.
  Proof. induction a as [|[o n] a IH]; intros b h; [reflexivity|]. cbn [app swap_all]. destruct (replace_static_src o_default h o n); [apply IH|reflexivity]. Qed.

  (** What is needed of the pairs. *)
  Record swappable (h0 : hugr) (ps : list (N * N)) : Prop := {
    sb_wf : wf h0;
    sb_once : NoDup (map fst ps);
    sb_old : forall o n, In (o, n) ps -> h_parent h0 o = Some (h_root h0);
    sb_new : forall o n, In (o, n) ps -> h_parent h0 n = Some (h_root h0);
    sb_out : forall o n, In (o, n) ps -> h_out h0 o <= h_out h0 n;
    sb_alive : forall a o n b, ps = a ++ (o, n) :: b -> ~ In n (map fst a) /\ n <> o;
    sb_entry : forall o n, In (o, n) ps -> ~ up (h_parent h0) (h_entry h0) o;
    sb_sole : forall l, In l (h_links h0) -> In (fst (fst l)) (map fst ps) -> sole (h_links h0) l }.

  Lemma top_only : forall (h0 : hugr), wf h0 -> forall a b, h_parent h0 a = Some (h_root h0) -> h_parent h0 b = Some (h_root h0) -> up (h_parent h0) a b -> a = b.
  Proof.
    intros h0 W a b Pa Pb U. inversion U as [|? p ? E U']; subst; [reflexivity|]. rewrite Pa in E. injection E as <-.
    apply (up_root h0 W) in U'. subst b. rewrite (wf_top h0 W) in Pb. discriminate.
  Qed.

  Lemma swap_all_spec : forall (h0 : hugr) all, swappable h0 all -> forall ps done h R, all = done ++ ps ->
    swapped h0 R (rho_of done) h -> (forall m, In m R <-> exists o, In o (map fst done) /\ up (h_parent h0) m o) ->
    exists h' R', swap_all h ps = Some h' /\ swapped h0 R' (rho_of all) h' /\ (forall m, In m R' <-> exists o, In o (map fst all) /\ up (h_parent h0) m o).
  Proof.
    intros h0 all B. pose proof (sb_wf _ _ B) as W. induction ps as [|[o n] ps IH]; intros done h R E Sw HR.
    { exists h, R. rewrite app_nil_r in E. subst all. split; [reflexivity|auto]. }
    assert (I : In (o, n) all) by (rewrite E; apply in_app_iff; right; now left).
    pose proof (sb_old _ _ B o n I) as Po. pose proof (sb_new _ _ B o n I) as Pn. destruct (sb_alive _ _ B done o n ps E) as [An Ano].
    assert (Olds : forall x, In x (map fst done) -> h_parent h0 x = Some (h_root h0)).
    { intros x X. apply in_map_iff in X. destruct X as ([x' y] & <- & X). apply (sb_old _ _ B x' y). rewrite E. apply in_app_iff. now left. }
    assert (No : ~ In o (map fst done)).
    { intros X. pose proof (sb_once _ _ B) as D. rewrite E, map_app in D. cbn [map fst] in D. apply NoDup_remove_2 in D. apply D, in_app_iff. now left. }
    destruct (swap_step o_default h0 h R (rho_of done) o n W Sw) as (h1 & R1 & E1 & Sw1 & HR1).
    - apply (wf_parent_live h0 W o _ Po).
    - rewrite HR. intros (x & Ix & U). apply No. rewrite (top_only h0 W o x Po (Olds x Ix) U). exact Ix.
    - apply (wf_parent_live h0 W n _ Pn).
    - rewrite HR. intros (x & Ix & U). apply An. rewrite (top_only h0 W n x Pn (Olds x Ix) U). exact Ix.
    - intros U. apply Ano. exact (top_only h0 W n o Pn Po U).
    - exact (sb_entry _ _ B o n I).
    - exact (sb_out _ _ B o n I).
    - intros l Il X. apply (sb_sole _ _ B l Il). rewrite E, map_app. apply in_app_iff.
      destruct (in_dec N.eq_dec (fst (fst l)) (map fst done)) as [J|J]; [now left|]. rewrite (rho_other _ _ J) in X. right. rewrite X. now left.
    - destruct (IH (done ++ [(o, n)]) h1 R1) as (h' & R' & E' & S').
      + now rewrite <- app_assoc.
      + destruct Sw1 as [? ? ? ? ? ? ? ? L1 ? ? ?]. constructor; auto. etransitivity; [exact L1|]. apply Permutation_refl'. f_equal. apply map_ext. intros l.
        unfold resrc. now rewrite rho_app.
      + intros m. rewrite HR1, HR, map_app. cbn [map fst]. split.
        * intros [(x & Ix & U)|U]; [exists x|exists o]; (split; [apply in_app_iff|]); auto. right. now left.
        * intros (x & Ix & U). apply in_app_iff in Ix. destruct Ix as [Ix|[<-|[]]]; [left; exists x; auto|now right].
      + exists h', R'. cbn [swap_all]. rewrite E1. auto.
  Qed.

  (** ** The model's loops are such sequences *)
  Lemma del_key_lookup : forall A n (m : list (N * A)) x, lookup (del_key n m) x = if N.eqb x n then None else lookup m x.
  Proof.
    intros A n m x. unfold del_key. induction m as [|[k v] m IH]; [cbn; now destruct (N.eqb x n)|]. cbn [filter fst lookup].
    destruct (N.eqb_spec k n) as [->|Ne]; cbn [negb].
    - rewrite IH. rewrite (N.eqb_sym n x). now destruct (N.eqb x n).
    - cbn [lookup]. rewrite IH. destruct (N.eqb_spec k x) as [->|]; [|reflexivity]. apply N.eqb_neq in Ne. now rewrite Ne.
  Qed.

  Lemma link_existing_swaps : forall f use h m, NoDup (map fst use) -> (forall x, In x (map fst use) -> lookup m x = Some (f x)) ->
    exists m', (forall x, lookup m' x = if memN x (map fst use) then None else lookup m x) /\
      link_existing o_default h m use = match swap_all h (map (fun e => (f (fst e), snd e)) use) with Some h' => Some (h', m') | None => None end.
  Proof.
    intros f. induction use as [|[sn tn] use IH]; intros h m D L; [exists m; split; reflexivity|].
    cbn [map fst] in D. inversion D as [|? ? N_ D']; subst.
    destruct (replace_static_src o_default h (f sn) tn) as [h1|] eqn:E1.
    - destruct (IH h1 (del_key sn m) D') as (m' & Hm & E).
      + intros x X. rewrite del_key_lookup. destruct (N.eqb_spec x sn) as [->|]; [contradiction|]. apply L. now right.
      + exists m'. split.
        * intros x. rewrite Hm, del_key_lookup. cbn [map fst]. rewrite memN_cons. destruct (N.eqb x sn), (memN x (map fst use)); reflexivity.
        * cbn [link_existing map fst snd swap_all]. rewrite (L sn (or_introl eq_refl)), E1. exact E.
    - destruct (IH h (del_key sn m) D') as (m' & Hm & _).
      + intros x X. rewrite del_key_lookup. destruct (N.eqb_spec x sn) as [->|]; [contradiction|]. apply L. now right.
      + exists m'. split.
        * intros x. rewrite Hm, del_key_lookup. cbn [map fst]. rewrite memN_cons. destruct (N.eqb x sn), (memN x (map fst use)); reflexivity.
        * cbn [link_existing map fst snd swap_all]. now rewrite (L sn (or_introl eq_refl)), E1.
  Qed.

  Lemma link_replaced_swaps : forall f rep h m, (forall x, In x (map snd rep) -> lookup m x = Some (f x)) ->
    link_replaced o_default h m rep = swap_all h (map (fun e => (fst e, f (snd e))) rep).
  Proof.
    intros f. induction rep as [|[tn sn] rep IH]; intros h m L; [reflexivity|]. cbn [link_replaced map fst snd swap_all].
    rewrite (L sn (or_introl eq_refl)). destruct (replace_static_src o_default h tn (f sn)); [|reflexivity]. apply IH. intros x X. apply L. now right.
  Qed.

  Lemma link_by_node_swaps : forall f (tr : transfers) h m, NoDup (map fst (t_use tr)) ->
    (forall x, In x (map fst (t_use tr)) -> lookup m x = Some (f x)) ->
    (forall x, In x (map snd (t_rep tr)) -> lookup m x = Some (f x) /\ ~ In x (map fst (t_use tr))) ->
    exists m', (forall x, lookup m' x = if memN x (map fst (t_use tr)) then None else lookup m x) /\
      link_by_node o_default h tr m =
      match swap_all h (map (fun e => (f (fst e), snd e)) (t_use tr) ++ map (fun e => (fst e, f (snd e))) (t_rep tr)) with
      | Some h' => Some (h', m') | None => None end.
  Proof.
    intros f tr h m D L1 L2. destruct (link_existing_swaps f (t_use tr) h m D L1) as (m' & Hm & E). exists m'. split; [exact Hm|].
    unfold link_by_node. rewrite E, swap_all_app. destruct (swap_all h (map (fun e => (f (fst e), snd e)) (t_use tr))) as [h1|]; [|reflexivity].
    rewrite (link_replaced_swaps f); [reflexivity|]. intros x X. destruct (L2 x X) as [A B]. rewrite Hm. apply memN_false in B. now rewrite B.
  Qed.
End Swaps.
