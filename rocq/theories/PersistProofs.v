(** Proofs about commit histories. *)
From Coq Require Import List Bool Arith Lia.
From Verif Require Import PersistModel PersistSpec.
Import ListNotations.

Lemma memb_In x l : memb x l = true <-> In x l.
Proof.
  unfold memb. rewrite existsb_exists. split.
  - intros [y [H E]]. apply Nat.eqb_eq in E. now subst.
  - intros H. exists x. split; [assumption|apply Nat.eqb_refl].
Qed.
Lemma memb_nIn x l : memb x l = false <-> ~ In x l.
Proof. rewrite <- memb_In. now rewrite not_true_iff_false. Qed.

Lemma uniq_In l : forall seen x, In x (uniq seen l) <-> In x l /\ ~ In x seen.
Proof.
  induction l as [|y l IH]; cbn; intros seen x; [tauto|].
  destruct (memb y seen) eqn:E.
  - apply memb_In in E. rewrite IH. split; [tauto|]. intros [[->|H] N]; [contradiction|tauto].
  - apply memb_nIn in E. cbn. rewrite IH. cbn. split.
    + intros [->|[H N]]; [tauto|tauto].
    + intros [[->|H] N]; [tauto|]. destruct (Nat.eq_dec y x) as [->|D]; [tauto|].
      right. split; [assumption|]. intros [F|F]; contradiction.
Qed.
Lemma uniq_nil_In l x : In x (uniq [] l) <-> In x l.
Proof. rewrite uniq_In. cbn. tauto. Qed.
Lemma uniq_NoDup l : forall seen, NoDup (uniq seen l).
Proof.
  induction l as [|y l IH]; cbn; intros seen; [constructor|].
  destruct (memb y seen); [apply IH|]. constructor; [|apply IH].
  rewrite uniq_In. cbn. tauto.
Qed.

Lemma NoDup_app_iff_local {A} (l k : list A) :
  NoDup (l ++ k) <-> NoDup l /\ NoDup k /\ (forall x, In x l -> ~ In x k).
Proof.
  induction l as [|y l IH]; cbn.
  - split; [intros H; repeat split; auto; constructor|tauto].
  - rewrite !NoDup_cons_iff, in_app_iff, IH. split.
    + intros [N [H1 [H2 H3]]]. repeat split; auto. intros x [<-|H]; auto.
    + intros [[N H1] [H2 H3]]. repeat split; auto.
      intros [F|F]; [contradiction|]. eapply H3; eauto.
Qed.

(** ** Worlds *)

Record wfw (w : world) : Prop := {
  wf_lt : forall c p, In p (parents w c) -> p < c;
  wf_del : forall c x, In x (deleted w c) -> In (fst x) (parents w c);
  wf_nodup : forall c, NoDup (deleted w c);
  wf_space : forall c p, c < length w -> In p (parents w c) -> space_of w p = space_of w c;
  wf_has_base : forall c, c < length w -> exists b, ancestor w c b /\ is_base w b = true;
  wf_one_base : forall b b', is_base w b = true -> is_base w b' = true ->
                             space_of w b = space_of w b' -> b = b'
}.

Lemma nth_snoc {A} (w : list A) x c :
  nth_error (w ++ [x]) c = if c <? length w then nth_error w c
                           else if c =? length w then Some x else None.
Proof.
  destruct (Nat.ltb_spec c (length w)) as [L|L].
  - now apply nth_error_app1.
  - rewrite nth_error_app2 by assumption. destruct (Nat.eqb_spec c (length w)) as [->|N].
    + now rewrite Nat.sub_diag.
    + destruct (c - length w) as [|[|k]] eqn:E; [lia|reflexivity|reflexivity].
Qed.

Lemma nth_none {A} (w : list A) c : length w <= c -> nth_error w c = None.
Proof. apply nth_error_None. Qed.
Lemma parents_lt w c p : In p (parents w c) -> c < length w.
Proof.
  unfold parents. destruct (nth_error w c) eqn:E; [|contradiction].
  intros _. apply nth_error_Some. congruence.
Qed.
Lemma deleted_lt w c x : In x (deleted w c) -> c < length w.
Proof.
  unfold deleted. destruct (nth_error w c) eqn:E; [|contradiction].
  intros _. apply nth_error_Some. congruence.
Qed.
Lemma is_base_lt w c : is_base w c = true -> c < length w.
Proof.
  unfold is_base. destruct (nth_error w c) eqn:E; [|discriminate].
  intros _. apply nth_error_Some. congruence.
Qed.

Section Snoc.
  Context (w : world) (x : commit).
  Lemma parents_old c : c < length w -> parents (w ++ [x]) c = parents w c.
  Proof. intros L. unfold parents. now rewrite nth_error_app1. Qed.
  Lemma deleted_old c : c < length w -> deleted (w ++ [x]) c = deleted w c.
  Proof. intros L. unfold deleted. now rewrite nth_error_app1. Qed.
  Lemma is_base_old c : c < length w -> is_base (w ++ [x]) c = is_base w c.
  Proof. intros L. unfold is_base. now rewrite nth_error_app1. Qed.
  Lemma space_old c : c < length w -> space_of (w ++ [x]) c = space_of w c.
  Proof. intros L. unfold space_of. now rewrite nth_error_app1. Qed.
  Lemma nth_new : nth_error (w ++ [x]) (length w) = Some x.
  Proof. rewrite nth_error_app2 by lia. now rewrite Nat.sub_diag. Qed.
End Snoc.

Lemma ancestor_trans w a b c : ancestor w a b -> ancestor w b c -> ancestor w a c.
Proof. induction 1; [auto|]. intros. eapply anc_up; eauto. Qed.
Lemma ancestor_le w (W : forall c p, In p (parents w c) -> p < c) c a :
  ancestor w c a -> a <= c.
Proof. induction 1 as [|c p a H _ IH]; [lia|]. apply W in H. lia. Qed.
Lemma ancestor_lt w (W : forall c p, In p (parents w c) -> p < c) c a :
  ancestor w c a -> c < length w -> a < length w.
Proof. intros H L. apply (ancestor_le w W) in H. lia. Qed.

Lemma ancestor_old w x (W : forall c p, In p (parents w c) -> p < c) c a :
  c < length w -> (ancestor (w ++ [x]) c a <-> ancestor w c a).
Proof.
  intros L. split.
  - intros H. revert L. induction H as [c|c p a H H' IH]; intros L; [constructor|].
    rewrite parents_old in H by assumption. econstructor; [exact H|]. apply IH.
    apply W in H. lia.
  - intros H. revert L. induction H as [c|c p a H H' IH]; intros L; [constructor|].
    econstructor; [rewrite parents_old by assumption; exact H|]. apply IH.
    apply W in H. lia.
Qed.

Lemma up_anc w : forall f c a, In a (up w f c) -> ancestor w c a.
Proof.
  induction f as [|f IH]; cbn; intros c a.
  - intros [->|[]]. constructor.
  - intros [->|H]; [constructor|]. apply in_flat_map in H as [p [Hp H]].
    econstructor; eauto.
Qed.
Lemma anc_up_list w (W : forall c p, In p (parents w c) -> p < c) c a :
  ancestor w c a -> forall f, c <= f -> In a (up w f c).
Proof.
  induction 1 as [c|c p a H H' IH]; intros f L.
  - destruct f; cbn; auto.
  - pose proof (W _ _ H). destruct f as [|f]; [lia|]. cbn. right. apply in_flat_map.
    exists p. split; [assumption|]. apply IH. lia.
Qed.
Lemma all_ancestors_In w (W : forall c p, In p (parents w c) -> p < c) c a :
  In a (all_ancestors w c) <-> ancestor w c a.
Proof.
  unfold all_ancestors. rewrite uniq_nil_In. split; [apply up_anc|].
  intros H. eapply anc_up_list; eauto.
Qed.
Lemma base_ancestors_In w (W : forall c p, In p (parents w c) -> p < c) c a :
  In a (base_ancestors w c) <-> ancestor w c a /\ is_base w a = true.
Proof. unfold base_ancestors. rewrite filter_In, all_ancestors_In by assumption. reflexivity. Qed.
Lemma base_ancestors_NoDup w c : NoDup (base_ancestors w c).
Proof. apply NoDup_filter, uniq_NoDup. Qed.

Lemma wfw_nil : wfw [].
Proof.
  assert (forall c, nth_error (@nil commit) c = None) as N by now intros [|c].
  constructor; unfold parents, deleted, is_base, space_of; intros; rewrite ?N in *; cbn in *;
    try contradiction; try lia; try discriminate. constructor.
Qed.

Lemma try_set_base_inv w s w' c : try_set_base w s = Some (w', c) ->
  (forall x, In x w -> c_space x <> s) /\ w' = w ++ [Commit s true [] []] /\ c = length w.
Proof.
  unfold try_set_base. destruct (existsb _ w) eqn:E; [discriminate|]. intros [= <- <-].
  split; [|auto]. intros x H F.
  assert (existsb (fun x => c_space x =? s) w = true) as T; [|congruence].
  apply existsb_exists. exists x. split; [assumption|]. now apply Nat.eqb_eq.
Qed.

Lemma space_unused w s (H : forall x, In x w -> c_space x <> s) c :
  c < length w -> space_of w c <> s.
Proof.
  intros L. unfold space_of. destruct (nth_error w c) eqn:E.
  - apply H. eapply nth_error_In; eauto.
  - apply nth_error_None in E. lia.
Qed.

(** A world grown by one commit. *)
Lemma wfw_snoc w x : wfw w ->
  (forall p, In p (c_parents x) -> p < length w) ->
  (c_base x = false -> forall d, In d (c_del x) -> In (fst d) (c_parents x)) ->
  NoDup (c_del x) ->
  (forall p, In p (c_parents x) -> space_of w p = c_space x) ->
  (c_base x = false -> c_parents x <> []) ->
  (c_base x = true -> forall c, c < length w -> space_of w c <> c_space x) ->
  wfw (w ++ [x]).
Proof.
  intros W HP HD HN HS HB HU. destruct W as [W1 W2 W3 W4 W5 W6].
  assert (forall c, c < length (w ++ [x]) -> c < length w \/ c = length w) as C.
  { intros c. rewrite app_length. cbn. lia. }
  assert (parents (w ++ [x]) (length w) = c_parents x) as EP by (unfold parents; now rewrite nth_new).
  assert (deleted (w ++ [x]) (length w) = if c_base x then [] else c_del x) as ED
      by (unfold deleted; now rewrite nth_new).
  assert (is_base (w ++ [x]) (length w) = c_base x) as EB by (unfold is_base; now rewrite nth_new).
  assert (space_of (w ++ [x]) (length w) = c_space x) as ES by (unfold space_of; now rewrite nth_new).
  assert (forall c p, In p (parents (w ++ [x]) c) -> p < c) as L1.
  { intros c p H. pose proof (parents_lt _ _ _ H) as L. apply C in L as [L|L].
    - rewrite parents_old in H by assumption. now apply W1.
    - subst c. rewrite EP in H. now apply HP. }
  constructor.
  - exact L1.
  - intros c d H. pose proof (deleted_lt _ _ _ H) as L. apply C in L as [L|L].
    + rewrite deleted_old in H by assumption. rewrite parents_old by assumption. now apply W2.
    + subst c. rewrite EP. rewrite ED in H. destruct (c_base x) eqn:B; [contradiction|]. auto.
  - intros c. destruct (Nat.lt_ge_cases c (length w)) as [L|L].
    + rewrite deleted_old by assumption. apply W3.
    + destruct (Nat.eq_dec c (length w)) as [->|N].
      * rewrite ED. destruct (c_base x); [constructor|assumption].
      * unfold deleted. rewrite nth_none; [constructor|]. rewrite app_length. cbn. lia.
  - intros c p L H. apply C in L as [L|L].
    + rewrite parents_old in H by assumption. rewrite !space_old; auto.
      apply W1 in H. lia.
    + subst c. rewrite EP in H. rewrite ES, space_old by auto. auto.
  - intros c L. apply C in L as [L|L].
    + destruct (W5 c L) as [b [Hb B]]. exists b. split.
      * now apply ancestor_old.
      * rewrite is_base_old; [assumption|]. eapply ancestor_lt; eauto.
    + subst c. destruct (c_base x) eqn:B.
      * exists (length w). split; [constructor|assumption].
      * destruct (c_parents x) as [|p ps] eqn:E; [now contradiction HB|].
        assert (p < length w) as Lp by (apply HP; now left).
        destruct (W5 p Lp) as [b [Hb Bb]]. exists b. split.
        -- econstructor; [rewrite EP; now left|]. now apply ancestor_old.
        -- rewrite is_base_old; [assumption|]. eapply ancestor_lt; eauto.
  - intros b b' B B' E. pose proof (is_base_lt _ _ B) as L. pose proof (is_base_lt _ _ B') as L'.
    apply C in L as [L|L]; apply C in L' as [L'|L'].
    + rewrite is_base_old in B, B' by assumption. rewrite !space_old in E by assumption. auto.
    + subst b'. rewrite EB in B'. rewrite ES, space_old in E by assumption.
      exfalso. eapply HU; eauto.
    + subst b. rewrite EB in B. rewrite ES, space_old in E by assumption.
      exfalso. eapply HU; eauto.
    + congruence.
Qed.

Lemma find_none {A} (f : A -> bool) l : find f l = None <-> forall x, In x l -> f x = false.
Proof.
  split; [apply find_none|]. induction l as [|y l IH]; cbn; intros H; [reflexivity|].
  rewrite (H y) by now left. apply IH. intros; apply H; now right.
Qed.

Lemma get_parent_commits_inv w s del ps : get_parent_commits w s del = Ok ps ->
  forall p, In p ps <-> In p (map fst del).
Proof.
  unfold get_parent_commits. destruct (find _ _); [discriminate|]. intros [= <-] p.
  apply uniq_nil_In.
Qed.
Lemma get_parent_commits_space w s del ps : get_parent_commits w s del = Ok ps ->
  forall p, In p ps -> p < length w /\ space_of w p = s.
Proof.
  unfold get_parent_commits. destruct (find _ _) eqn:E; [discriminate|]. intros [= <-] p H.
  rewrite find_none in E. apply E in H. apply negb_false_iff in H.
  unfold try_upgrade in H. unfold space_of. destruct (nth_error w p) eqn:F; [|discriminate].
  apply Nat.eqb_eq in H. split; [|assumption]. apply nth_error_Some. congruence.
Qed.

Lemma commit_try_new_inv w s del extra w' c : commit_try_new w s del extra = Ok (w', c) ->
  exists ps, get_parent_commits w s del = Ok ps /\ del <> [] /\ c = length w /\
    w' = w ++ [Commit s false (uniq [] (extra ++ ps)) del] /\
    length (base_ancestors w' (length w)) = 1.
Proof.
  unfold commit_try_new. destruct del as [|d del]; [discriminate|].
  destruct (get_parent_commits w s (d :: del)) as [ps|]; [|discriminate].
  match goal with |- (if ?b then _ else _) = _ -> _ => destruct b eqn:E end; [|discriminate].
  intros [= <- <-]. apply Nat.eqb_eq in E. exists ps. repeat split; auto. discriminate.
Qed.

Lemma space_anc w (W : wfw w) c a : c < length w -> ancestor w c a -> space_of w a = space_of w c.
Proof.
  intros L H. induction H as [c|c p a H H' IH]; [reflexivity|].
  rewrite IH.
  - now apply (wf_space w W).
  - apply (wf_lt w W) in H. lia.
Qed.

Lemma nodup_one {A} (l : list A) a b : NoDup l -> length l = 1 -> In a l -> In b l -> a = b.
Proof.
  destruct l as [|x [|y l]]; cbn; try discriminate. intros _ _ [->|[]] [->|[]]. reflexivity.
Qed.

Lemma commit_wfw w s del extra w' c : wfw w -> NoDup del ->
  (forall x, In x extra -> x < length w) -> commit_try_new w s del extra = Ok (w', c) -> wfw w'.
Proof.
  intros W ND HX H. apply commit_try_new_inv in H as [ps [HP [Dn [-> [-> HB]]]]].
  pose proof (get_parent_commits_inv _ _ _ _ HP) as PI.
  pose proof (get_parent_commits_space _ _ _ _ HP) as PS.
  set (x := Commit s false (uniq [] (extra ++ ps)) del) in *.
  assert (forall p, In p (c_parents x) <-> In p extra \/ In p ps) as CP.
  { intros p. cbn. rewrite uniq_nil_In, in_app_iff. reflexivity. }
  assert (forall p, In p (c_parents x) -> p < length w) as LP.
  { intros p. rewrite CP. intros [H|H]; [auto|]. now apply PS. }
  assert (forall c p, In p (parents (w ++ [x]) c) -> p < c) as L1.
  { intros c p H. pose proof (parents_lt _ _ _ H) as L.
    rewrite app_length in L; cbn in L. destruct (Nat.eq_dec c (length w)) as [->|N].
    - unfold parents in H. rewrite nth_new in H. auto.
    - rewrite parents_old in H by lia. now apply (wf_lt w W). }
  (* a parent from the deleted nodes *)
  assert (exists p0, In p0 ps) as [p0 H0].
  { destruct del as [|d del]; [congruence|]. exists (fst d). apply PI. now left. }
  destruct (PS p0 H0) as [L0 S0].
  assert (forall p, In p (c_parents x) -> exists b, ancestor w p b /\ is_base w b = true /\
            In b (base_ancestors (w ++ [x]) (length w))) as BA.
  { intros p Hp. destruct (wf_has_base w W p (LP p Hp)) as [b [Hb B]]. exists b.
    repeat split; auto. apply base_ancestors_In; [exact L1|].
    assert (b < length w) as Lb by (exact (ancestor_lt w (wf_lt w W) _ _ Hb (LP p Hp))).
    split; [|now rewrite is_base_old].
    apply anc_up with p; [unfold parents; now rewrite nth_new|].
    apply ancestor_old; [exact (wf_lt w W)|auto|assumption]. }
  apply wfw_snoc; auto.
  - intros _ d Hd. apply CP. right. apply PI. now apply in_map.
  - intros p Hp. destruct (BA p Hp) as [b [Ab [Bb Ib]]].
    destruct (BA p0) as [b0 [Ab0 [Bb0 Ib0]]]; [apply CP; now right|].
    pose proof (nodup_one _ _ _ (base_ancestors_NoDup _ _) HB Ib Ib0) as E. subst b0.
    cbn. rewrite <- (space_anc w W p b), <- S0, <- (space_anc w W p0 b); auto.
  - intros _ E. assert (In p0 (c_parents x)) by (apply CP; now right). rewrite E in H. contradiction.
  - discriminate.
Qed.

Lemma base_wfw w s w' c : wfw w -> try_set_base w s = Some (w', c) -> wfw w'.
Proof.
  intros W H. apply try_set_base_inv in H as [U [-> ->]].
  apply wfw_snoc; cbn; [assumption|intros p []|discriminate|apply NoDup_nil|intros p []|discriminate|].
  intros _ d L. now apply space_unused.
Qed.

Lemma made_wfw w : made w -> wfw w.
Proof. induction 1; eauto using wfw_nil, base_wfw, commit_wfw. Qed.

(** ** Collecting ancestors *)

Section Walk.
  Context (w : world) (W : forall c p, In p (parents w c) -> p < c) (cont : nat -> bool).

  Record winv (old : list nat) (c0 : nat) (seen done todo : list nat) : Prop := {
    wi_nodup : NoDup (done ++ todo);
    wi_seen : forall x, In x seen <-> In x old \/ In x done \/ In x todo;
    wi_new : forall x, In x done \/ In x todo -> ~ In x old;
    wi_closed : forall x p, In x done -> cont x = true -> In p (parents w x) -> In p seen;
    wi_reach : forall x, In x done \/ In x todo -> reached w cont c0 x;
    wi_lt : forall x, In x done \/ In x todo -> x < length w
  }.

  Lemma reached_trans a b c : reached w cont a b -> reached w cont b c -> reached w cont a c.
  Proof. induction 1; [auto|]. intros. eapply reach_up; eauto. Qed.

  Lemma winv_step old c0 seen done c todo :
    winv old c0 seen done (c :: todo) ->
    if cont c then winv old c0 (uniq seen (parents w c) ++ seen) (c :: done)
                        (todo ++ uniq seen (parents w c))
    else winv old c0 seen (c :: done) todo.
  Proof.
    intros [N S Nw Cl R L].
    assert (NoDup (c :: done ++ todo)) as N'.
    { apply (NoDup_Add (Add_app c done todo)) in N as [N1 N2]. constructor; assumption. }
    destruct (cont c) eqn:Ec.
    - set (new := uniq seen (parents w c)).
      assert (forall x, In x new <-> In x (parents w c) /\ ~ In x seen) as HN
          by (intro; apply uniq_In).
      constructor.
      + rewrite <- app_comm_cons, app_assoc. inversion N'; subst. constructor.
        * rewrite in_app_iff, HN. intros [F|[_ F]]; [contradiction|]. apply F, S. cbn. tauto.
        * apply NoDup_app_iff_local.
          split; [assumption|]. split; [apply uniq_NoDup|].
          intros x Hx F. apply HN in F as [_ F]. apply F, S. apply in_app_iff in Hx. cbn. tauto.
      + intros x. rewrite in_app_iff, in_app_iff, S. cbn. tauto.
      + intros x H. assert (In x done \/ In x (c :: todo) \/ In x new) as [H'|[H'|H']].
        { cbn in *. rewrite in_app_iff in H. tauto. }
        * apply Nw. now left.
        * apply Nw. now right.
        * apply HN in H' as [_ H']. intros F. apply H', S. now left.
      + intros x p Hx Cx Hp. apply in_app_iff. destruct Hx as [<-|Hx].
        * destruct (in_dec Nat.eq_dec p seen) as [I|I]; [now right|]. left. apply HN. tauto.
        * right. eapply Cl; eauto.
      + intros x H. assert (In x done \/ In x (c :: todo) \/ In x new) as [H'|[H'|H']].
        { cbn in *. rewrite in_app_iff in H. tauto. }
        * apply R. now left.
        * apply R. now right.
        * apply HN in H' as [H' _]. apply reached_trans with c; [apply R; cbn; tauto|].
          eapply reach_up; eauto. constructor.
      + intros x H. assert (In x done \/ In x (c :: todo) \/ In x new) as [H'|[H'|H']].
        { cbn in *. rewrite in_app_iff in H. tauto. }
        * apply L. now left.
        * apply L. now right.
        * apply HN in H' as [H' _]. apply W in H'. assert (c < length w) by (apply L; cbn; tauto). lia.
    - constructor.
      + exact N'.
      + intros x. rewrite S. cbn. tauto.
      + intros x H. apply Nw. cbn in *. tauto.
      + intros x p [<-|Hx] Cx Hp; [congruence|]. eapply Cl; eauto.
      + intros x H. apply R. cbn in *. tauto.
      + intros x H. apply L. cbn in *. tauto.
  Qed.

  Lemma winv_len old c0 seen done todo :
    winv old c0 seen done todo -> length done + length todo <= length w.
  Proof.
    intros [N S Nw Cl R L]. rewrite <- app_length, <- (seq_length (length w) 0).
    apply NoDup_incl_length; [assumption|]. intros x H. apply in_seq.
    apply in_app_iff, L in H. lia.
  Qed.

  Lemma walk_spec : forall fuel old c0 seen done todo,
    winv old c0 seen done todo -> length w < fuel + length done ->
    exists seen' chunk, walk w cont fuel seen done todo = Some (seen', chunk) /\
      winv old c0 seen' (rev chunk) [] /\
      (forall x, In x done \/ In x todo -> In x chunk).
  Proof.
    induction fuel as [|f IH]; intros old c0 seen done todo I F.
    - pose proof (winv_len _ _ _ _ _ I) as WL. destruct todo as [|c todo]; [|cbn in *; lia].
      cbn. exists seen, (rev done). rewrite rev_involutive. split; [reflexivity|split; [exact I|]].
      intros x [H|[]]. now apply -> in_rev.
    - destruct todo as [|c todo].
      + cbn. exists seen, (rev done). rewrite rev_involutive. split; [reflexivity|split; [exact I|]].
        intros x [H|[]]. now apply -> in_rev.
      + pose proof (winv_step _ _ _ _ _ _ I) as I'. cbn [walk].
        destruct (cont c).
        * destruct (IH _ _ _ _ _ I') as [s' [ch [E [J K]]]]; [cbn; lia|].
          exists s', ch. split; [exact E|split; [exact J|]]. intros x H. apply K. cbn in *.
          rewrite in_app_iff. tauto.
        * destruct (IH _ _ _ _ _ I') as [s' [ch [E [J K]]]]; [cbn; lia|].
          exists s', ch. split; [exact E|split; [exact J|]]. intros x H. apply K. cbn in *. tauto.
  Qed.

  Lemma winv_init seen c : ~ In c seen -> c < length w -> winv seen c (c :: seen) [] [c].
  Proof.
    intros N L. constructor; cbn.
    - constructor; [tauto|constructor].
    - intros x. tauto.
    - intros x [[]|[<-|[]]]. assumption.
    - intros x p [].
    - intros x [[]|[<-|[]]]. constructor.
    - intros x [[]|[<-|[]]]. assumption.
  Qed.

  (** What is known about the list collected so far. *)
  Record ainv (starts seen all : list nat) : Prop := {
    ai_nodup : NoDup all;
    ai_seen : forall x, In x seen <-> In x all;
    ai_closed : forall x p, In x all -> cont x = true -> In p (parents w x) -> In p all;
    ai_reach : forall x, In x all -> exists s, In s starts /\ reached w cont s x;
    ai_starts : forall s, In s starts -> In s all;
    ai_lt : forall x, In x all -> x < length w
  }.

  Lemma ancestors_spec_aux : forall starts before seen all,
    ainv before seen all -> (forall s, In s starts -> s < length w) ->
    exists l, ancestors_from w cont starts seen all = Some l /\
      exists seen', ainv (before ++ starts) seen' l.
  Proof.
    induction starts as [|c starts IH]; intros before seen all A L; cbn [ancestors_from].
    - exists all. split; [reflexivity|]. exists seen. now rewrite app_nil_r.
    - replace (before ++ c :: starts) with ((before ++ [c]) ++ starts)
        by (rewrite <- app_assoc; reflexivity).
      destruct (memb c seen) eqn:E.
      + apply IH; [|intros; apply L; now right]. apply memb_In in E. destruct A.
        constructor; auto.
        * intros x H. destruct (ai_reach0 x H) as [s [Hs R]]. exists s. split; [|assumption].
          apply in_app_iff. now left.
        * intros s H. apply in_app_iff in H as [H|[<-|[]]]; [auto|]. now apply ai_seen0.
      + apply memb_nIn in E.
        destruct (walk_spec (S (length w)) seen c (c :: seen) [] [c])
          as [seen' [chunk [-> [I K]]]]; [apply winv_init; [assumption|apply L; now left]|cbn; lia|].
        apply IH; [|intros; apply L; now right].
        destruct A. destruct I as [N S Nw Cl R Lt].
        rewrite app_nil_r in N.
        assert (forall x, In x (rev chunk) <-> In x chunk) as RV by (intro; symmetry; apply in_rev).
        constructor.
        * apply NoDup_app_iff_local. split; [|split; [assumption|]].
          -- rewrite <- (rev_involutive chunk). now apply NoDup_rev.
          -- intros x H F. apply ai_seen0 in F. apply (Nw x); [|assumption]. left. now apply RV.
        * intros x. rewrite S, in_app_iff, RV. cbn. rewrite ai_seen0. tauto.
        * intros x p H Cx Hp. apply in_app_iff. apply in_app_iff in H as [H|H].
          -- apply RV in H. pose proof (Cl x p H Cx Hp) as Q. apply S in Q. rewrite RV in Q. cbn in Q.
             rewrite ai_seen0 in Q. tauto.
          -- right. eauto.
        * intros x H. apply in_app_iff in H as [H|H].
          -- exists c. split; [apply in_app_iff; right; now left|]. apply R. left. now apply RV.
          -- destruct (ai_reach0 x H) as [s [Hs R']]. exists s. split; [|assumption].
             apply in_app_iff. now left.
        * intros s H. apply in_app_iff. apply in_app_iff in H as [H|[<-|[]]]; [auto|].
          left. apply K. cbn. tauto.
        * intros x H. apply in_app_iff in H as [H|H]; [|auto]. apply Lt. left. now apply RV.
  Qed.

  Lemma ancestors_spec starts : (forall s, In s starts -> s < length w) ->
    exists l seen, get_ancestors_while w starts cont = Some l /\ ainv starts seen l.
  Proof.
    intros L. destruct (ancestors_spec_aux starts [] [] []) as [l [E [s A]]]; auto.
    - constructor; cbn; try tauto. constructor.
    - exists l, s. auto.
  Qed.

  Lemma closed_reached (P : nat -> Prop) :
    (forall x p, P x -> cont x = true -> In p (parents w x) -> P p) ->
    forall a b, reached w cont a b -> P a -> P b.
  Proof. intros C a b H. induction H; eauto. Qed.

  (** *** Order, when every parent is exactly one level up *)
  Context (rank : nat -> nat) (RK : forall c p, In p (parents w c) -> rank p = S (rank c)).

  Lemma rank_reached a b : reached w cont a b -> a = b \/ rank a < rank b.
  Proof.
    induction 1 as [|c p a Cc Hp _ IH]; [now left|]. right. apply RK in Hp.
    destruct IH as [->|IH]; lia.
  Qed.

  (** Every entry's rank is at most every later entry's. *)
  Fixpoint ranked (l : list nat) : Prop :=
    match l with
    | [] => True
    | x :: l => (forall y, In y l -> rank x <= rank y) /\ ranked l
    end.
  Lemma ranked_app l k : ranked (l ++ k) <->
    ranked l /\ ranked k /\ (forall x y, In x l -> In y k -> rank x <= rank y).
  Proof.
    induction l as [|z l IH]; cbn; [firstorder|]. rewrite IH. split.
    - intros [H [H1 [H2 H3]]]. repeat split; auto.
      + intros y Hy. apply H, in_app_iff. now left.
      + intros x y [<-|Hx] Hy; [|auto]. apply H, in_app_iff. now right.
    - intros [[H H1] [H2 H3]]. repeat split; auto.
      intros y Hy. apply in_app_iff in Hy as [Hy|Hy]; auto.
  Qed.

  Definition level (todo : list nat) : Prop :=
    match todo with [] => True | h :: t => forall y, In y t -> rank y <= S (rank h) end.

  Lemma ranked_same l r : (forall x, In x l -> rank x = r) -> ranked l.
  Proof.
    induction l as [|x l IH]; cbn; intros H; [trivial|]. split; [|apply IH; auto].
    intros y Hy. rewrite (H x), (H y); auto.
  Qed.

  Lemma walk_ranked : forall fuel seen done todo s' ch,
    walk w cont fuel seen done todo = Some (s', ch) ->
    ranked (rev done ++ todo) -> level todo -> ranked ch.
  Proof.
    induction fuel as [|f IH]; intros seen done todo s' ch E R Lv.
    - destruct todo; [|discriminate]. cbn in E. injection E as <- <-. now rewrite app_nil_r in R.
    - destruct todo as [|c todo].
      + cbn in E. injection E as <- <-. now rewrite app_nil_r in R.
      + cbn [walk] in E.
        assert (level todo) as Lt.
        { destruct todo as [|h t]; [exact I|]. cbn. intros y Hy.
          assert (rank y <= S (rank c)) by (apply Lv; now right).
          apply ranked_app in R as [_ [[R _] _]]. specialize (R h (or_introl eq_refl)). lia. }
        assert (forall x y, In x (rev done ++ [c]) -> In y (parents w c) -> rank x <= rank y) as Q.
        { intros x y Hx Hy. apply RK in Hy. apply ranked_app in R as [_ [R1 R2]].
          apply in_app_iff in Hx as [Hx|[<-|[]]]; [|lia].
          specialize (R2 x c Hx (or_introl eq_refl)). lia. }
        replace (rev done ++ c :: todo) with ((rev done ++ [c]) ++ todo) in R
          by (rewrite <- app_assoc; reflexivity).
        destruct (cont c).
        * apply IH in E; [assumption| |].
          -- cbn [rev]. rewrite app_assoc. apply ranked_app. split; [assumption|].
             set (new := uniq seen (parents w c)).
             assert (forall y, In y new -> rank y = S (rank c)) as HN
                 by (intros y Hy; apply uniq_In in Hy as [Hy _]; now apply RK).
             split; [eapply ranked_same; eassumption|].
             intros x y Hx Hy. apply in_app_iff in Hx as [Hx|Hx].
             ++ apply Q; [assumption|]. now apply uniq_In in Hy.
             ++ rewrite (HN y Hy). now apply Lv.
          -- assert (forall y, In y (uniq seen (parents w c)) -> rank y = S (rank c)) as HN
                 by (intros y Hy; apply uniq_In in Hy as [Hy _]; now apply RK).
             destruct todo as [|h t]; cbn [app].
             ++ destruct (uniq seen (parents w c)) as [|h t] eqn:U; [exact I|]. cbn.
                intros y Hy. rewrite (HN h), (HN y); cbn; auto.
             ++ cbn. intros y Hy. apply in_app_iff in Hy as [Hy|Hy]; [now apply Lt|].
                rewrite (HN y Hy). apply ranked_app in R as [_ [_ R]].
                assert (rank c <= rank h); [|lia]. apply R.
                ** apply in_app_iff. right. now left.
                ** now left.
        * apply IH in E; [assumption|exact R|exact Lt].
  Qed.

  Definition ordered (l : list nat) : Prop :=
    forall l1 a l2 c, l = l1 ++ a :: l2 -> In c l2 -> reached w cont c a -> False.

  Lemma ordered_app l k : NoDup (l ++ k) -> ranked l -> ordered k ->
    (forall x p, In x k -> cont x = true -> In p (parents w x) -> In p k) -> ordered (l ++ k).
  Proof.
    intros N R O C. revert N R. induction l as [|x l IH]; cbn; intros N R; [assumption|].
    destruct R as [R1 R2]. inversion N as [|? ? N1 N2]; subst. intros l1 a l2 c E Hc H.
    destruct l1 as [|y l1]; cbn in E; injection E as -> E.
    - subst l2. apply in_app_iff in Hc as Hc'. destruct Hc' as [Hl|Hk].
      + specialize (R1 c Hl). apply rank_reached in H as [->|H]; [|lia].
        apply N1, in_app_iff. now left.
      + apply N1, in_app_iff. right. revert H Hk. apply (closed_reached (fun z => In z k)). exact C.
    - eapply IH; eauto.
  Qed.

  Lemma ancestors_ordered_aux : forall starts before seen all l,
    ainv before seen all -> ordered all -> (forall s, In s starts -> s < length w) ->
    ancestors_from w cont starts seen all = Some l -> ordered l.
  Proof.
    induction starts as [|c starts IH]; intros before seen all l A O L E; cbn [ancestors_from] in E.
    - now injection E as <-.
    - destruct (memb c seen) eqn:M.
      + eapply IH; eauto. intros; apply L; now right.
      + apply memb_nIn in M.
        destruct (walk_spec (S (length w)) seen c (c :: seen) [] [c])
          as [seen' [chunk [Ew [I K]]]]; [apply winv_init; [assumption|apply L; now left]|cbn; lia|].
        rewrite Ew in E.
        destruct (ancestors_spec_aux [c] before seen all A) as [l' [El' [sn' A']]].
        { intros s [<-|[]]. apply L. now left. }
        cbn [ancestors_from] in El'. rewrite (proj2 (memb_nIn c seen) M), Ew in El'.
        injection El' as <-.
        assert (ainv (before ++ [c]) seen' (chunk ++ all)) as A''.
        { destruct A'. constructor; auto. intros x. destruct A. destruct I.
          rewrite wi_seen0, in_app_iff, <- in_rev, ai_seen1. cbn. tauto. }
        eapply IH; [exact A''| |intros; apply L; now right|exact E].
        apply ordered_app; [apply A''| |assumption|apply A].
        eapply walk_ranked; [exact Ew| |]; cbn; intuition.
  Qed.
End Walk.
