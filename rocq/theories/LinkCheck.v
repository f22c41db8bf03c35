(** Proofs about linking: the check of the directives. *)
From Coq Require Import List Bool NArith Arith Lia.
From Verif Require Import GraphModel GraphSpec GraphProofs GraphRemove InsertModel InsertProofs InsertTree InsertForest LinkModel LinkSpec.
Import ListNotations.

Lemma record_replace_ok : forall sn rs rep, NoDup (map fst rep) ->
  match record_replace rep sn rs with
  | inl rep' => rep' = rep ++ map (fun r => (r, sn)) rs /\ NoDup (map fst rep')
  | inr e => exists tn a xs ys zs, e = NodeMultiplyReplaced tn a sn /\ rep ++ map (fun r => (r, sn)) rs = xs ++ (tn, a) :: ys ++ (tn, sn) :: zs
  end.
Proof.
  intros sn. induction rs as [|r rs IH]; intros rep D; cbn [record_replace map]; [rewrite app_nil_r; auto|].
  destruct (lookup rep r) as [old|] eqn:E.
  - apply lookup_In in E. apply in_split in E. destruct E as (xs & ys & ->). exists r, old, xs, ys, (map (fun r => (r, sn)) rs).
    split; [reflexivity|]. now rewrite <- app_assoc.
  - apply lookup_None in E. assert (D' : NoDup (map fst (rep ++ [(r, sn)]))) by (rewrite map_app; cbn [map fst]; now apply nodup_snoc).
    specialize (IH (rep ++ [(r, sn)]) D'). rewrite <- app_assoc in IH. exact IH.
Qed.

Section Check.
  Context {O M : Type}.
  Notation hugr := (hugr O M).
  Variable other : hugr.
  Hypothesis W : wf other.

  Lemma child_of_root : forall sn, (match get_parent other sn with Some p => N.eqb p (h_root other) | None => false end) = true <-> h_parent other sn = Some (h_root other).
  Proof.
    intros sn. rewrite get_parent_wf by exact W. destruct (h_parent other sn) as [p|]; [|split; discriminate]. rewrite N.eqb_eq. split; [now intros ->|now intros [= ->]].
  Qed.

  Lemma record_all_ok : forall children tr, NoDup (map fst (t_rep tr)) ->
    match record_all other tr children with
    | inl tr' => (forall sn, In sn (map fst children) -> h_parent other sn = Some (h_root other)) /\
                 t_use tr' = t_use tr ++ substitutes children /\ t_rep tr' = t_rep tr ++ replacements children /\ NoDup (map fst (t_rep tr'))
    | inr (NotChildOfRoot sn) => In sn (map fst children) /\ h_parent other sn <> Some (h_root other)
    | inr (NodeMultiplyReplaced tn a b) => exists xs ys zs, t_rep tr ++ replacements children = xs ++ (tn, a) :: ys ++ (tn, b) :: zs
    | inr _ => False
    end.
  Proof.
    induction children as [|[sn d] children IH]; intros tr D; cbn [record_all].
    { cbn. rewrite !app_nil_r. repeat split; auto. intros sn []. }
    destruct (match get_parent other sn with Some p => N.eqb p (h_root other) | None => false end) eqn:E.
    2:{ split; [now left|]. intros X. apply child_of_root in X. congruence. }
    apply child_of_root in E. destruct d as [rs|tn].
    - pose proof (record_replace_ok sn rs (t_rep tr) D) as R. destruct (record_replace (t_rep tr) sn rs) as [rep'|e].
      + destruct R as [R1 R2]. specialize (IH (mkTransfers (t_use tr) rep') R2). cbn [t_use t_rep] in IH.
        change (replacements ((sn, Add rs) :: children)) with (map (fun r => (r, sn)) rs ++ replacements children). rewrite app_assoc, <- R1.
        destruct (record_all other (mkTransfers (t_use tr) rep') children) as [tr'|[x|x|x|x a b]].
        * destruct IH as (A & B & C & F). split; [|split; [exact B|split; [exact C|exact F]]]. intros x [<-|I]; [exact E|now apply A].
        * destruct IH.
        * destruct IH.
        * destruct IH as [A B]. split; [now right|exact B].
        * exact IH.
      + destruct R as (tn & a & xs & ys & zs & -> & R). exists xs, ys, (zs ++ replacements children).
        change (replacements ((sn, Add rs) :: children)) with (map (fun r => (r, sn)) rs ++ replacements children). rewrite app_assoc, R.
        repeat (rewrite <- app_assoc; cbn [app]). reflexivity.
    - specialize (IH (mkTransfers (t_use tr ++ [(sn, tn)]) (t_rep tr)) D). cbn [t_use t_rep] in IH.
      change (replacements ((sn, UseExisting tn) :: children)) with (replacements children).
      change (substitutes ((sn, UseExisting tn) :: children)) with ([(sn, tn)] ++ substitutes children). rewrite app_assoc.
      destruct (record_all other (mkTransfers (t_use tr ++ [(sn, tn)]) (t_rep tr)) children) as [tr'|[x|x|x|x a b]].
      + destruct IH as (A & B & C & F). split; [|split; [exact B|split; [exact C|exact F]]]. intros x [<-|I]; [exact E|now apply A].
      + destruct IH.
      + destruct IH.
      + destruct IH as [A B]. split; [now right|exact B].
      + exact IH.
  Qed.

  Lemma add_above_sound : forall children fuel n p, add_above other children fuel n = Some p -> added children p /\ below other n p.
  Proof.
    intros children. induction fuel as [|fuel IH]; intros n p; cbn [add_above]; [discriminate|]. rewrite get_parent_wf by exact W.
    destruct (h_parent other n) as [q|] eqn:Q; [|discriminate].
    assert (Rest : add_above other children fuel q = Some p -> added children p /\ below other n p).
    { intros X. apply IH in X. destruct X as [X Y]. split; [exact X|now apply up_next with q]. }
    destruct (lookup children q) as [[rs|tn]|] eqn:L; auto.
    intros [= <-]. apply lookup_In in L. split; [now exists rs|]. apply up_next with q; [exact Q|constructor].
  Qed.

  Lemma add_above_complete : forall children, NoDup (map fst children) -> forall fuel n, add_above other children fuel n = None ->
    forall k p, k <= fuel -> 0 < k -> hops (h_parent other) k n = Some p -> ~ added children p.
  Proof.
    intros children ND. induction fuel as [|fuel IH]; intros n E k p Lk Pk H; [lia|].
    cbn [add_above] in E. rewrite get_parent_wf in E by exact W. destruct k as [|k]; [lia|]. cbn [hops] in H. destruct (h_parent other n) as [q|] eqn:Q; [|discriminate].
    destruct k as [|k].
    - cbn in H. injection H as <-. intros (rs & I). rewrite (lookup_nodup _ _ _ _ ND I) in E. discriminate.
    - apply (IH q) with (k := Datatypes.S k); [|lia|lia|exact H]. destruct (lookup children q) as [[rs|tn]|]; [discriminate|exact E|exact E].
  Qed.

  Lemma check_entry_ok : forall children, NoDup (map fst children) ->
    match check_entry other children with
    | None => (h_entry other = h_root other -> children = []) /\ (h_entry other <> h_root other -> ~ In (h_entry other) (map fst children)) /\
              (h_entry other <> h_root other -> forall sn, added children sn -> ~ below other (h_entry other) sn)
    | Some e => justified other (Some 0%N) children e
    end.
  Proof.
    intros children ND. unfold check_entry. destruct (N.eqb_spec (h_entry other) (h_root other)) as [E|E].
    - destruct children as [|[c d] children]; [auto|]. cbn. repeat split; auto. discriminate.
    - destruct (lookup children (h_entry other)) as [d|] eqn:L.
      + cbn. repeat split; auto; [discriminate|]. left. split; [reflexivity|]. apply lookup_In in L. apply (in_map fst) in L. exact L.
      + destruct (add_above other children (length (h_nodes other)) (h_entry other)) as [p|] eqn:A; cbn [option_map].
        * apply add_above_sound in A. cbn. repeat split; auto. discriminate.
        * apply lookup_None in L. split; [contradiction|]. split; [auto|]. intros _ sn Ad B.
          assert (Ne : sn <> h_entry other). { intros ->. apply L. destruct Ad as (rs & I). apply (in_map fst) in I. exact I. }
          apply up_hops in B. destruct B as (k & Hk). destruct k as [|k]; [cbn in Hk; congruence|].
          assert (Lk : Datatypes.S k <= length (h_nodes other)).
          { apply Nat.lt_le_incl. apply (hops_bound (h_parent other) (h_root other) (h_nodes other) (wf_top other W) (wf_parent other W) (h_entry other) (wf_entry other W) (wf_reach other W _ (wf_entry other W)) _ _ Hk). }
          exact (add_above_complete children ND _ _ A (Datatypes.S k) sn Lk ltac:(lia) Hk Ad).
  Qed.

  Lemma check_spec : forall parent children, NoDup (map fst children) ->
    match check_directives other parent children with
    | inl tr => acceptable other parent children /\ t_use tr = substitutes children /\ t_rep tr = replacements children
    | inr e => justified other parent children e
    end.
  Proof.
    intros parent children ND. unfold check_directives.
    destruct (match parent with Some _ => check_entry other children | None => None end) as [e|] eqn:E.
    { destruct parent as [p|]; [|discriminate]. pose proof (check_entry_ok children ND) as C. rewrite E in C.
      destruct e; cbn [justified] in *; auto; destruct C as [_ C]; (split; [discriminate|exact C]). }
    pose proof (record_all_ok children (mkTransfers [] []) (NoDup_nil _)) as R. cbn [t_use t_rep app] in R.
    destruct (record_all other (mkTransfers [] []) children) as [tr|[x|x|x|x a b]]; try contradiction; try exact R.
    destruct R as (A & B & C & D). split; [|auto]. rewrite C in D.
    destruct parent as [p|].
    - pose proof (check_entry_ok children ND) as K. rewrite E in K. destruct K as (K1 & K2 & K3). constructor; auto.
    - constructor; auto; contradiction.
  Qed.

  Lemma justified_wrong : forall parent children e, justified other parent children e -> ~ acceptable other parent children.
  Proof.
    intros parent children e J A. destruct e as [sn|sn|sn|tn a b]; cbn in J.
    - destruct J as (P & E & I). rewrite (ac_whole _ _ _ A P E) in I. destruct I.
    - destruct J as (P & E & [[-> I]|[I B]]); [exact (ac_entry _ _ _ A P E I)|exact (ac_above _ _ _ A P E sn I B)].
    - destruct J as [I N_]. apply N_, (ac_root _ _ _ A sn I).
    - destruct J as (xs & ys & zs & E). pose proof (ac_once _ _ _ A) as D. rewrite E, map_app in D. cbn [map fst] in D. apply NoDup_remove_2 in D.
      apply D. apply in_app_iff. right. rewrite map_app. apply in_app_iff. right. now left.
  Qed.
End Check.
