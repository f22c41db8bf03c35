(** Proofs about changing the signature of a function. *)
From Coq Require Import List Bool NArith Arith Lia Permutation.
From Verif Require Import TypesModel GraphModel GraphSpec GraphProofs GraphRemove OpModel OpSpec DeadModel InlineModel InlineProofs ReplaceModel ValidModel ValidSpec MapioModel MapioSpec.
Import ListNotations.
Local Notation wf := GraphSpec.wf.

(** ** Lists *)
Lemma place_nth : forall l k, In k l -> nth_error l (place k l) = Some k.
Proof.
  induction l as [|x l IH]; intros k H; [destruct H|]. cbn. destruct (Nat.eqb_spec x k) as [->|Hn]; [reflexivity|]. destruct H as [H|H]; [contradiction|]. now apply IH.
Qed.
Lemma place_unique : forall l p k, NoDup l -> nth_error l p = Some k -> place k l = p.
Proof.
  induction l as [|x l IH]; intros p k D H; [destruct p; discriminate|]. inversion D; subst. destruct p as [|p]; cbn in *.
  - injection H as ->. now rewrite Nat.eqb_refl.
  - destruct (Nat.eqb_spec x k) as [->|Hn]; [apply nth_error_In in H; contradiction|]. f_equal. now apply IH.
Qed.
Lemma picked_some r : forall l r', pick r l = Some r' -> picked r l r'.
Proof.
  induction l as [|k l IH]; intros r' H; cbn in H; [injection H as <-; constructor|]. destruct (nth_error r k) eqn:E; [|discriminate]. destruct (pick r l); [|discriminate]. injection H as <-. constructor; [exact E|]. now apply IH.
Qed.
Lemma picked_length r l r' : picked r l r' -> length r' = length l.
Proof. induction 1; cbn; congruence. Qed.
Lemma pick_total r : forall l, (forall k, In k l -> k < length r) -> exists r', pick r l = Some r'.
Proof.
  induction l as [|k l IH]; intros H; [now exists []|]. cbn. destruct (nth_error r k) as [t|] eqn:E; [|apply nth_error_None in E; specialize (H k (or_introl eq_refl)); lia].
  destruct IH as (r' & ->); [intros; apply H; now right|]. eauto.
Qed.
Lemma enum_in {A} (l : list A) p x : In (p, x) (enumerate l) <-> nth_error l p = Some x.
Proof.
  unfold enumerate. assert (G : forall (l : list A) a, In (p, x) (combine (seq a (length l)) l) <-> a <= p /\ nth_error l (p - a) = Some x).
  { clear l. induction l as [|y l IH]; intros a; cbn.
    - split; [tauto|]. intros [_ H]. destruct (p - a); discriminate.
    - rewrite IH. split.
      + intros [H|[H1 H2]]; [injection H as -> ->; rewrite Nat.sub_diag; auto|]. split; [lia|]. replace (p - a) with (S (p - S a)) by lia. exact H2.
      + intros [H1 H2]. destruct (Nat.eq_dec a p) as [->|Hn]; [left; rewrite Nat.sub_diag in H2; cbn in H2; congruence|]. right. split; [lia|]. replace (p - a) with (S (p - S a)) in H2 by lia. exact H2. }
  rewrite G, Nat.sub_0_r. intuition lia.
Qed.
Lemma times_zero l k : times l k = 0 <-> ~ In k l.
Proof. unfold times. split; intros H; [now apply count_occ_not_In with (eq_dec := Nat.eq_dec)|now apply count_occ_not_In]. Qed.
Lemma not_copyable t : copyable t = false <-> lub t = Linear.
Proof. unfold copyable. destruct (lub t); cbn; split; congruence. Qed.

Lemma filter_filter {A} (f g : A -> bool) l : filter f (filter g l) = filter (fun x => g x && f x) l.
Proof. induction l as [|x l IH]; [reflexivity|]. cbn. destruct (g x) eqn:E; cbn; [destruct (f x); now rewrite IH|exact IH]. Qed.
Lemma filter_same {A} (f g : A -> bool) l : (forall x, In x l -> f x = g x) -> filter f l = filter g l.
Proof. induction l as [|x l IH]; intros H; [reflexivity|]. cbn. rewrite (H x) by now left. rewrite IH by (intros; apply H; now right). reflexivity. Qed.
Lemma filter_all {A} (f : A -> bool) l : (forall x, In x l -> f x = true) -> filter f l = l.
Proof. induction l as [|x l IH]; intros H; [reflexivity|]. cbn. rewrite (H x) by now left. now rewrite IH by (intros; apply H; now right). Qed.
Lemma filter_none {A} (f : A -> bool) l : (forall x, In x l -> f x = false) -> filter f l = [].
Proof. induction l as [|x l IH]; intros H; [reflexivity|]. cbn. rewrite (H x) by now left. now rewrite IH by (intros; apply H; now right). Qed.
Lemma filter_split {A} (f : A -> bool) l : Permutation l (filter f l ++ filter (fun x => negb (f x)) l).
Proof. induction l as [|x l IH]; [constructor|]. cbn. destruct (f x); cbn; [now constructor|]. apply Permutation_cons_app, IH. Qed.

Lemma flat_map_same {A B} (f g : A -> list B) l : (forall x, In x l -> f x = g x) -> flat_map f l = flat_map g l.
Proof. induction l as [|x l IH]; intros H; [reflexivity|]. cbn. rewrite (H x) by now left. now rewrite IH by (intros; apply H; now right). Qed.

(** Links by the position of their source. *)
Lemma by_place (i : N) : forall ins a (X : list link), NoDup ins -> (forall x, In x X -> In (snd (fst x)) ins) ->
  Permutation (map (fun l : link => ((i, a + place (snd (fst l)) ins), snd l)) X)
    (flat_map (fun e : nat * nat => map (fun l : link => ((i, fst e), snd l)) (filter (fun l : link => Nat.eqb (snd (fst l)) (snd e)) X)) (combine (seq a (length ins)) ins)).
Proof.
  induction ins as [|k ins IH]; intros a X D H.
  - destruct X as [|x X]; [constructor|]. destruct (H x (or_introl eq_refl)).
  - inversion D; subst. cbn [length seq combine flat_map fst snd].
    etransitivity; [apply Permutation_map, (filter_split (fun l : link => Nat.eqb (snd (fst l)) k))|]. rewrite map_app. apply Permutation_app.
    + apply Permutation_refl'. apply map_ext_in. intros x Hx. apply filter_In in Hx as [_ Hx]. apply Nat.eqb_eq in Hx. cbn. rewrite Hx, Nat.eqb_refl. now rewrite Nat.add_0_r.
    + set (Y := filter (fun l : link => negb (Nat.eqb (snd (fst l)) k)) X).
      assert (HY : forall x, In x Y -> In (snd (fst x)) ins /\ snd (fst x) <> k).
      { intros x Hx. apply filter_In in Hx as [Hx Hn]. apply negb_true_iff, Nat.eqb_neq in Hn. destruct (H x Hx) as [E|E]; [congruence|auto]. }
      erewrite map_ext_in; [etransitivity; [apply (IH (S a) Y); [assumption|apply HY]|]|].
      * apply Permutation_refl'. apply flat_map_same. intros [p k'] He. cbn [fst snd]. f_equal. unfold Y. rewrite filter_filter. apply filter_same. intros x _.
        apply in_combine_r in He. destruct (Nat.eqb_spec (snd (fst x)) k) as [->|]; [|reflexivity]. cbn. symmetry. apply Nat.eqb_neq. intros ->. contradiction.
      * intros x Hx. destruct (HY x Hx) as [_ Hn]. cbn. destruct (Nat.eqb_spec k (snd (fst x))) as [->|]; [congruence|]. now rewrite Nat.add_succ_r.
Qed.

(** ** Steps of the code *)
Section Steps.
  Context {M : Type}.
  Notation hugr := (hugr op M).

  Lemma each_cut (h : hugr) n d : forall ps L, In n (h_nodes h) -> (forall p, In p ps -> p < num_ports h n d) ->
    each (fun h p => disconnect h n d p) ps (set_links h L) =
    Some (set_links h (filter (fun l : link => negb (N.eqb (fst (match d with Inc => snd l | Out => fst l end)) n && existsb (Nat.eqb (snd (match d with Inc => snd l | Out => fst l end))) ps)) L)).
  Proof.
    induction ps as [|p ps IH]; intros L Hn Hp; cbn [each].
    - f_equal. f_equal. symmetry. apply filter_all. intros x _. cbn. now rewrite andb_false_r.
    - unfold disconnect at 1, valid_port, contains, num_ports. cbn [set_links h_nodes h_in h_out h_links]. rewrite (proj2 (memN_iff n (h_nodes h)) Hn).
      pose proof (Hp p (or_introl eq_refl)) as Hlt. unfold num_ports in Hlt. rewrite (proj2 (Nat.ltb_lt _ _) Hlt). cbn [andb].
      change (set_links (set_links h L) ?X) with (set_links h X). rewrite IH; [|exact Hn|intros; apply Hp; now right].
      f_equal. f_equal. rewrite filter_filter. apply filter_same. intros l _. unfold at_port, ep_eqb. cbn [existsb fst snd].
      destruct d, l as [[s a] [t b]]; cbn [fst snd]; [destruct (N.eqb t n)|destruct (N.eqb s n)]; cbn; try reflexivity; now rewrite negb_orb.
  Qed.
  Lemma disconnect_all_eq (h : hugr) n : wf h -> In n (h_nodes h) -> disconnect_all h n = Some (set_links h (filter (fun l => negb (touches n l)) (h_links h))).
  Proof.
    intros W Hn. unfold disconnect_all. assert (E : set_links h (h_links h) = h) by (destruct h; reflexivity).
    pose proof (each_cut h n Inc (seq 0 (h_in h n)) (h_links h) Hn) as C. rewrite E in C. rewrite C by (intros p Hp; apply in_seq in Hp; cbn; lia). clear C. cbn [set_links h_out].
    rewrite each_cut; [|exact Hn|intros p Hp; apply in_seq in Hp; cbn; lia]. f_equal. f_equal. rewrite filter_filter. apply filter_same. intros l Hl. destruct (wf_links _ W _ Hl) as [[_ A] [_ B]].
    unfold touches. rewrite negb_orb, andb_comm. f_equal; f_equal.
    - destruct (N.eqb_spec (fst (fst l)) n) as [<-|]; [|reflexivity]. cbn. apply existsb_exists. exists (snd (fst l)). split; [apply in_seq; lia|apply Nat.eqb_refl].
    - destruct (N.eqb_spec (fst (snd l)) n) as [<-|]; [|reflexivity]. cbn. apply existsb_exists. exists (snd (snd l)). split; [apply in_seq; lia|apply Nat.eqb_refl].
  Qed.
End Steps.

Section Checks.
  Context {M : Type}.
  Notation hugr := (hugr op M).
  Variable shuffle : list nat -> list nat.
  Hypothesis Hsh : forall l, Permutation (shuffle l) l.

  Lemma unknown_spec r l : match unknown r l with Some k => In k l /\ length r <= k | None => forall k, In k l -> k < length r end.
  Proof.
    unfold unknown. destruct (find _ l) eqn:E.
    - apply find_some in E as [A B]. apply Nat.leb_le in B. auto.
    - intros k Hk. pose proof (find_none _ _ E k Hk) as B. apply Nat.leb_gt in B. exact B.
  Qed.
  Lemma linked_in_iff (h : hugr) n k d : In d (linked_inputs h n k) <-> In ((n, k), d) (h_links h).
  Proof.
    unfold linked_inputs. rewrite in_map_iff. split.
    - intros ([s e] & <- & H). apply filter_In in H as [H E]. apply ep_eqb_iff in E. cbn in E. subst s. exact H.
    - intros H. exists ((n, k), d). split; [reflexivity|]. apply filter_In. split; [exact H|]. now apply ep_eqb_iff.
  Qed.

  Lemma check_in (h : hugr) i r s ins outs : wf h -> h_out h i = S (length r) ->
    match check_valid_inputs shuffle (map (linked_inputs h i) (seq 0 (h_out h i))) r ins with
    | Some e => explains h i r s ins outs e
    | None => (forall k, In k ins -> k < length r) /\ NoDup ins /\ (forall k d, In ((i, k), d) (h_links h) -> In k ins) /\ (forall k t, nth_error r k = Some t -> lub t = Linear -> In k ins)
    end.
  Proof.
    intros W Ho. unfold check_valid_inputs. pose proof (unknown_spec r ins) as U. destruct (unknown r ins) as [k|]; [exact U|].
    set (ps := map (linked_inputs h i) (seq 0 (h_out h i))).
    assert (Hps : forall k l, nth_error ps k = Some l <-> k < h_out h i /\ l = linked_inputs h i k).
    { intros k l. unfold ps. rewrite nth_error_map. destruct (lt_dec k (h_out h i)) as [Hk|Hk].
      - rewrite (nth_error_nth' _ 0) by (rewrite seq_length; exact Hk). rewrite seq_nth by exact Hk. cbn. split; [intros [= <-]; auto|intros [_ ->]; reflexivity].
      - replace (nth_error (seq 0 (h_out h i)) k) with (@None nat) by (symmetry; apply nth_error_None; rewrite seq_length; lia). cbn. split; [discriminate|tauto]. }
    destruct (find _ (enumerate ps)) as [[k l]|] eqn:F.
    - apply find_some in F as [A B]. apply enum_in, Hps in A as [A ->]. cbn [fst snd] in B. apply andb_true_iff in B as [B C]. apply Nat.eqb_eq, times_zero in C. cbn [fst]. split; [exact C|].
      apply orb_true_iff in B as [B|B].
      + left. destruct (linked_inputs h i k) as [|d l] eqn:E; [discriminate|]. exists d. apply (proj1 (linked_in_iff h i k d)). rewrite E. now left.
      + right. destruct (nth_error r k) as [t|] eqn:Ht; [|discriminate]. exists t. split; [reflexivity|]. apply not_copyable, negb_true_iff. exact B.
    - assert (G : forall k, k < h_out h i -> (linked_inputs h i k <> [] \/ exists t, nth_error r k = Some t /\ lub t = Linear) -> In k ins).
      { intros k Hk Hc. destruct (in_dec Nat.eq_dec k ins) as [|Hn]; [assumption|exfalso]. pose proof (find_none _ _ F (k, linked_inputs h i k)) as B.
        rewrite enum_in, Hps in B. specialize (B (conj Hk eq_refl)). cbn [fst snd] in B. rewrite (proj2 (times_zero ins k) Hn), Nat.eqb_refl, andb_true_r in B.
        apply orb_false_iff in B as [B1 B2]. destruct Hc as [Hc|(t & Ht & Hl)].
        - destruct (linked_inputs h i k); [contradiction|discriminate].
        - rewrite Ht in B2. apply not_copyable in Hl. rewrite Hl in B2. discriminate. }
      destruct (find _ (shuffle _)) as [k|] eqn:D.
      + apply find_some in D as [_ D]. apply Nat.ltb_lt in D. exact D.
      + split; [exact U|]. split; [|split].
        * apply (NoDup_count_occ Nat.eq_dec). intros k. destruct (in_dec Nat.eq_dec k ins) as [Hk|Hk]; [|apply (count_occ_not_In Nat.eq_dec) in Hk; lia].
          pose proof (find_none _ _ D k) as B. apply Nat.ltb_ge. apply B. apply (Permutation_in _ (Permutation_sym (Hsh _))), nodup_In, Hk.
        * intros k d Hd. apply G; [destruct (wf_links _ W _ Hd) as [[_ H] _]; exact H|]. left. apply (proj2 (linked_in_iff h i k d)) in Hd. intros E. rewrite E in Hd. exact Hd.
        * intros k t Ht Hl. apply G; [assert (k < length r) by (apply nth_error_Some; congruence); lia|eauto].
  Qed.

  Lemma check_lin outs (sg : row) : forall s a, (forall k t, In (k, t) (combine (seq a (length s)) s) -> nth_error sg k = Some t) ->
    match check_linear outs (combine (seq a (length s)) s) with
    | Some (MissingIO k true) => ~ In k outs /\ exists t, nth_error sg k = Some t /\ lub t = Linear
    | Some (LinearityViolation k) => 1 < count_occ Nat.eq_dec outs k /\ exists t, nth_error sg k = Some t /\ lub t = Linear
    | Some _ => False
    | None => forall k t, In (k, t) (combine (seq a (length s)) s) -> lub t = Linear -> count_occ Nat.eq_dec outs k = 1
    end.
  Proof.
    induction s as [|t s IH]; intros a H; cbn [length seq combine check_linear]; [intros k t []|]. specialize (IH (S a) (fun k t Hk => H k t (or_intror Hk))).
    destruct (copyable t) eqn:C.
    - destruct (check_linear outs _) as [e|]; [exact IH|]. intros k u [E|E] Hl; [injection E as <- <-; apply not_copyable in Hl; congruence|eauto].
    - destruct (times outs a) as [|[|x]] eqn:T.
      + split; [now apply times_zero|]. exists t. split; [apply H; now left|now apply not_copyable].
      + destruct (check_linear outs _) as [e|]; [exact IH|]. intros k u [E|E] Hl; [injection E as <- <-; exact T|eauto].
      + split; [unfold times in T; lia|]. exists t. split; [apply H; now left|now apply not_copyable].
  Qed.
  Lemma check_out (h : hugr) i r s ins outs :
    match check_valid_outputs s outs with
    | Some e => explains h i r s ins outs e
    | None => (forall k, In k outs -> k < length s) /\ (forall k t, nth_error s k = Some t -> lub t = Linear -> count_occ Nat.eq_dec outs k = 1)
    end.
  Proof.
    unfold check_valid_outputs. pose proof (unknown_spec s outs) as U. destruct (unknown s outs) as [k|]; [exact U|].
    pose proof (check_lin outs s s 0) as L. unfold enumerate. specialize (L (fun k t Hk => proj1 (enum_in s k t) Hk)).
    destruct (check_linear _ _) as [[? []|? []|?|?|?]|]; try contradiction; try exact L. split; [exact U|]. intros k t Ht. apply L. apply enum_in, Ht.
  Qed.
End Checks.
