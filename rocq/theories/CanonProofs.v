(** Lemmas about the canonical renumbering. *)
From Coq Require Import List Bool NArith Arith Lia Permutation.
From Verif Require Import GraphModel GraphSpec GraphProofs GraphRemove GraphBfs InsertSpec CanonModel.
Import ListNotations.

Lemma swapN_invol : forall a b n, swapN a b (swapN a b n) = n.
Proof.
  intros a b n. unfold swapN. destruct (N.eqb_spec n a) as [->|Na].
  - rewrite N.eqb_refl. destruct (N.eqb_spec b a) as [->|]; reflexivity.
  - destruct (N.eqb_spec n b) as [->|Nb]; [now rewrite N.eqb_refl|].
    destruct (N.eqb_spec n a); [contradiction|]. destruct (N.eqb_spec n b); [contradiction|reflexivity].
Qed.
Lemma swapN_inj : forall a b x y, swapN a b x = swapN a b y -> x = y.
Proof. intros a b x y E. rewrite <- (swapN_invol a b x), <- (swapN_invol a b y). now rewrite E. Qed.
Lemma swapN_l : forall a b, swapN a b a = b.
Proof. intros a b. unfold swapN. now rewrite N.eqb_refl. Qed.
Lemma swapN_r : forall a b, swapN a b b = a.
Proof. intros a b. unfold swapN. rewrite N.eqb_refl. destruct (N.eqb_spec b a) as [->|]; reflexivity. Qed.
Lemma swapN_other : forall a b n, n <> a -> n <> b -> swapN a b n = n.
Proof. intros a b n A B. unfold swapN. apply N.eqb_neq in A, B. now rewrite A, B. Qed.

Section Chase.
  Variable ordered : list N.
  Hypothesis Dup : NoDup ordered.
  Definition at_ (i : N) : option N := nth_error ordered (N.to_nat i).
  Lemma at_inj : forall i j v, at_ i = Some v -> at_ j = Some v -> i = j.
  Proof.
    intros i j v A B. unfold at_ in *. apply N2Nat.inj.
    apply (proj1 (NoDup_nth_error ordered) Dup); [apply nth_error_Some; congruence|congruence].
  Qed.

  (** The chain of displaced indices. *)
  Inductive chain (k : N) : N -> N -> Prop :=
  | chain_end c : (k <= c)%N -> chain k c c
  | chain_next c v z : (c < k)%N -> at_ c = Some v -> chain k v z -> chain k c z.

  Lemma chase_sound : forall k fuel c z, chase ordered k fuel c = Some z -> chain k c z.
  Proof.
    intros k fuel. induction fuel as [|fuel IH]; intros c z E; [discriminate|]. cbn [chase] in E.
    destruct (N.ltb_spec c k).
    - fold (at_ c) in E. destruct (at_ c) as [v|] eqn:A; [|discriminate]. eapply chain_next; eauto.
    - injection E as <-. now constructor.
  Qed.
  Lemma chain_fun : forall k c z, chain k c z -> forall z', chain k c z' -> z = z'.
  Proof.
    intros k c z C. induction C as [c L|c v z L A C IH]; intros z' C'; inversion C'; subst; try lia; auto.
    apply IH. congruence.
  Qed.

  Lemma bounded_nodup : forall l k, NoDup l -> (forall v, In v l -> (v < k)%N) -> length l <= N.to_nat k.
  Proof.
    intros l k D B. replace (N.to_nat k) with (length (map N.of_nat (seq 0 (N.to_nat k)))) by (rewrite map_length; apply seq_length).
    apply NoDup_incl_length; [exact D|]. intros v I. apply B in I. apply in_map_iff. exists (N.to_nat v). split; [apply N2Nat.id|].
    apply in_seq. lia.
  Qed.

  Lemma chase_total : forall k y, (N.to_nat k <= length ordered) -> (forall i, (i < k)%N -> at_ i <> Some y) ->
    forall fuel c V, NoDup (c :: V) -> (forall v, In v V -> (v < k)%N) ->
    (forall v, In v (c :: V) -> v = y \/ exists w, In w V /\ at_ w = Some v) ->
    N.to_nat k < fuel + length V -> chase ordered k fuel c <> None.
  Proof.
    intros k y Lk Ny. induction fuel as [|fuel IH]; intros c V D B S Lf.
    - exfalso. inversion D as [|? ? Nc D']; subst. pose proof (bounded_nodup V k D' B). cbn in Lf. lia.
    - cbn [chase]. destruct (N.ltb_spec c k) as [Lc|]; [|discriminate]. fold (at_ c).
      destruct (at_ c) as [v|] eqn:A.
      2:{ exfalso. unfold at_ in A. apply nth_error_None in A. lia. }
      apply (IH v (c :: V)).
      + constructor; [|exact D]. intros I. destruct (S v I) as [->|(w & Iw & Aw)]; [exact (Ny c Lc A)|].
        rewrite (at_inj w c v Aw A) in Iw. inversion D; contradiction.
      + intros w [<-|I]; auto.
      + intros w [<-|I]; [right; exists c; split; [now left|exact A]|]. destruct (S w I) as [->|(x & Ix & Ax)]; [now left|].
        right. exists x. split; [now right|exact Ax].
      + cbn [length]. lia.
  Qed.
End Chase.

Section Canon.
  Context {O M : Type}.
  Notation hugr := (hugr O M).

  (** [h'] is [h] with its indices renamed by [s], except for metadata, root and entrypoint. *)
  Record renamed (h : hugr) (s : N -> N) (h' : hugr) : Prop := {
    rn_inj : forall x y, s x = s y -> x = y;
    rn_nodes : h_nodes h' = map s (h_nodes h);
    rn_ops : forall n, h_ops h' (s n) = h_ops h n;
    rn_in : forall n, h_in h' (s n) = h_in h n;
    rn_out : forall n, h_out h' (s n) = h_out h n;
    rn_links : h_links h' = map (move_link s) (h_links h);
    rn_parent : forall n, h_parent h' (s n) = option_map s (h_parent h n);
    rn_kids : forall n, h_kids h' (s n) = map s (h_kids h n) }.

  Lemma renamed_refl : forall h : hugr, renamed h (fun n => n) h.
  Proof.
    intros h. split; auto.
    - now rewrite map_id.
    - rewrite <- (map_id (h_links h)) at 1. apply map_ext. intros [[a b] [c d]]. reflexivity.
    - intros n. now destruct (h_parent h n).
    - intros n. now rewrite map_id.
  Qed.

  Lemma renamed_swap : forall (h h' : hugr) s a b, renamed h s h' -> renamed h (fun n => swapN a b (s n)) (swap_nodes h' a b).
  Proof.
    intros h h' s a b R. split; cbn [swap_nodes h_nodes h_ops h_in h_out h_links h_parent h_kids]; try intros n; rewrite ?swapN_invol; try apply R.
    - intros y E. apply swapN_inj in E. now apply (rn_inj _ _ _ R).
    - rewrite (rn_nodes _ _ _ R), map_map. reflexivity.
    - rewrite (rn_links _ _ _ R), map_map. apply map_ext. intros [[u i] [v j]]. reflexivity.
    - rewrite (rn_parent _ _ _ R). now destruct (h_parent h n).
    - rewrite (rn_kids _ _ _ R), map_map. reflexivity.
  Qed.

  Section Loop.
    Variable h0 : hugr.
    Variable ordered : list N.
    Hypothesis Dup : NoDup ordered.
    Hypothesis Ent : In (h_entry h0) ordered.

    Record canon_inv (k : N) (h : hugr) (entry : option N) (s : N -> N) : Prop := {
      ci_renamed : renamed h0 s h;
      ci_placed : forall i v, (i < k)%N -> at_ ordered i = Some v -> s v = i;
      ci_chain : forall y, (forall i, (i < k)%N -> at_ ordered i <> Some y) -> chain ordered k y (s y);
      ci_meta : h_meta h = h_meta h0;
      ci_root : h_root h = h_root h0;
      ci_entry : h_entry h = h_entry h0;
      ci_new : entry = None /\ (forall i, (i < k)%N -> at_ ordered i <> Some (h_entry h0)) \/ entry = Some (s (h_entry h0)) /\ exists i, (i < k)%N /\ at_ ordered i = Some (h_entry h0) }.

    (** The renumbering is the composition of the reported swaps. *)
    Definition apply_calls (calls : list (N * N)) (n : N) : N := fold_left (fun n c => swapN (snd c) (fst c) n) calls n.

    Lemma apply_calls_app : forall a b n, apply_calls (a ++ b) n = apply_calls b (apply_calls a n).
    Proof. intros a b n. apply fold_left_app. Qed.

    Lemma loop_spec : forall todo k h entry calls s, canon_inv k h entry s ->
      (forall n, s n = apply_calls (rev calls) n) ->
      (N.to_nat k <= length ordered) -> todo = skipn (N.to_nat k) ordered ->
      exists h' entry' calls' s', canon_loop ordered todo k h entry calls = Some (h', entry', calls') /\
        canon_inv (N.of_nat (length ordered)) h' entry' s' /\ (forall n, s' n = apply_calls (rev calls') n).
    Proof.
      induction todo as [|x todo IH]; intros k h entry calls s C Hs Lk E.
      - exists h, entry, calls, s. split; [reflexivity|]. split; [|exact Hs].
        assert (k = N.of_nat (length ordered)); [|now subst].
        assert (length (skipn (N.to_nat k) ordered) = 0) by (rewrite <- E; reflexivity). rewrite skipn_length in H. lia.
      - cbn [canon_loop].
        assert (Ax : at_ ordered k = Some x).
        { unfold at_. rewrite <- (firstn_skipn (N.to_nat k) ordered), <- E. rewrite nth_error_app2; rewrite firstn_length_le by exact Lk; [|lia].
          now rewrite Nat.sub_diag. }
        assert (Lt : N.to_nat k < length ordered) by (apply nth_error_Some; unfold at_ in Ax; congruence).
        assert (Fx : forall i, (i < k)%N -> at_ ordered i <> Some x).
        { intros i Li Ai. pose proof (at_inj ordered Dup i k x Ai Ax). lia. }
        assert (Todo : todo = skipn (N.to_nat (k + 1)) ordered).
        { replace (N.to_nat (k + 1)) with (S (N.to_nat k)) by lia. clear - E. revert E. generalize (N.to_nat k). intros n. revert ordered.
          induction n as [|n IHn]; intros l E; [destruct l; cbn in *; congruence|]. destruct l; [discriminate|]. cbn in E |- *. now apply IHn. }
        destruct (chase ordered k (S (length ordered)) x) as [z|] eqn:Ch.
        2:{ exfalso. revert Ch. apply (chase_total ordered Dup k x Lk Fx _ x []).
            - constructor; [intros []|constructor].
            - intros v [].
            - intros v [<-|[]]. now left.
            - cbn. lia. }
        apply chase_sound in Ch. assert (Ez : s x = z) by (eapply chain_fun; [apply (ci_chain _ _ _ _ C x Fx)|exact Ch]).
        assert (Step : forall h1 s1, renamed h0 s1 h1 -> h_meta h1 = h_meta h0 -> h_root h1 = h_root h0 -> h_entry h1 = h_entry h0 ->
                  (forall n, s1 n = swapN k z (s n)) -> canon_inv (k + 1) h1 (if N.eqb x (h_entry h) then Some k else entry) s1).
        { intros h1 s1 R1 Me1 Ro1 En1 Es. 
          assert (Sx : s1 x = k) by (rewrite Es, Ez; apply swapN_r).
          assert (Sp : forall i v, (i < k)%N -> at_ ordered i = Some v -> s1 v = i).
          { intros i v Li Ai. rewrite Es, (ci_placed _ _ _ _ C i v Li Ai). apply swapN_other; [lia|].
            intros ->. pose proof (ci_placed _ _ _ _ C z v Li Ai) as P. rewrite <- Ez in P.
            apply (rn_inj _ _ _ (ci_renamed _ _ _ _ C)) in P. subst v. exact (Fx _ Li Ai). }
          constructor; auto.
          - intros i v Li Ai. destruct (N.eq_dec i k) as [->|Ne].
            + rewrite Ax in Ai. injection Ai as <-. exact Sx.
            + apply Sp; [lia|exact Ai].
          - intros y Fy. assert (Fy' : forall i, (i < k)%N -> at_ ordered i <> Some y) by (intros i Li; apply Fy; lia).
            assert (Yx : y <> x) by (intros ->; apply (Fy k); [lia|exact Ax]).
            assert (Syz : s y <> z).
            { intros Q. rewrite <- Ez in Q. apply (rn_inj _ _ _ (ci_renamed _ _ _ _ C)) in Q. contradiction. }
            assert (Up : forall c w, chain ordered k c w -> w <> k -> chain ordered (k + 1) c w).
            { intros c w Cw. induction Cw as [c L|c v w L A Cw IHw]; intros Nw; [constructor; lia|]. apply chain_next with v; auto; lia. }
            assert (Cat : forall c w, chain ordered k c w -> w = k -> forall w', chain ordered (k + 1) k w' -> chain ordered (k + 1) c w').
            { intros c w Cw. induction Cw as [c L|c v w L A Cw IHw]; intros Ew w' C'; [now subst|]. apply chain_next with v; auto; lia. }
            pose proof (ci_chain _ _ _ _ C y Fy') as Cy. rewrite Es. destruct (N.eq_dec (s y) k) as [Ek|Nk].
            + rewrite Ek, swapN_l. apply (Cat y (s y) Cy Ek). apply chain_next with x; [lia|exact Ax|].
              apply Up; [exact Ch|]. intros ->. contradiction.
            + rewrite swapN_other by auto. now apply Up.
          - rewrite (ci_entry _ _ _ _ C). destruct (N.eqb_spec x (h_entry h0)) as [Ee|Ne].
            + right. split; [rewrite <- Ee, Sx; reflexivity|]. exists k. split; [lia|]. now rewrite <- Ee.
            + destruct (ci_new _ _ _ _ C) as [[En Fe]|[En (i & Li & Ai)]].
              * left. split; [exact En|]. intros i Li. destruct (N.eq_dec i k) as [->|]; [rewrite Ax; congruence|apply Fe; lia].
              * right. split; [|exists i; split; [lia|exact Ai]]. rewrite En, (ci_placed _ _ _ _ C i _ Li Ai), (Sp i _ Li Ai). reflexivity. }
        destruct (N.eqb_spec k z) as [Ekz|Nkz].
        + apply (IH (k + 1)%N h _ calls s); auto; [|lia].
          apply Step; [exact (ci_renamed _ _ _ _ C)|exact (ci_meta _ _ _ _ C)|exact (ci_root _ _ _ _ C)|exact (ci_entry _ _ _ _ C)|].
          intros n. subst z. unfold swapN. destruct (N.eqb_spec (s n) k) as [->|]; [auto|]. 
          destruct (N.eqb_spec (s n) (s x)) as [->|]; auto.
        + apply (IH (k + 1)%N (swap_nodes h k z) _ ((z, k) :: calls) (fun n => swapN k z (s n))); auto; [| |lia].
          * apply Step; [apply renamed_swap; exact (ci_renamed _ _ _ _ C)|exact (ci_meta _ _ _ _ C)|exact (ci_root _ _ _ _ C)|exact (ci_entry _ _ _ _ C)|reflexivity].
          * intros n. cbn [rev]. rewrite apply_calls_app, <- Hs. reflexivity.
    Qed.
  End Loop.

  Lemma bfs_renamed : forall (kids kids' : N -> list N) s, (forall n, kids' (s n) = map s (kids n)) ->
    forall fuel q, bfs kids' fuel (map s q) = map s (bfs kids fuel q).
  Proof.
    intros kids kids' s K. induction fuel as [|fuel IH]; intros q; [reflexivity|]. destruct q as [|n q]; [reflexivity|].
    cbn [bfs map]. f_equal. rewrite K, <- map_app. apply IH.
  Qed.

  Lemma nth_seq_map : forall (l : list N) (s : N -> N), (forall i v, nth_error l i = Some v -> s v = N.of_nat i) ->
    map s l = map N.of_nat (seq 0 (length l)).
  Proof.
    intros l s. assert (G : forall b, (forall i v, nth_error l i = Some v -> s v = N.of_nat (b + i)) -> map s l = map N.of_nat (seq b (length l))).
    { induction l as [|x l IH]; intros b H; [reflexivity|]. cbn [map length seq]. f_equal.
      - rewrite (H 0 x eq_refl). f_equal. lia.
      - apply IH. intros i v E. rewrite (H (S i) v E). f_equal. lia. }
    intros H. apply (G 0). exact H.
  Qed.

  Lemma canonicalize_spec : forall h : hugr, wf h ->
    exists h' calls s, canonicalize_nodes h = Some (h', calls) /\ renamed h s h' /\
      (forall n, s n = apply_calls calls n) /\
      map s (descendants h (h_root h)) = map N.of_nat (seq 0 (length (h_nodes h))) /\
      h_root h' = s (h_root h) /\ s (h_root h) = 0%N /\ h_entry h' = s (h_entry h) /\ h_meta h' = h_meta h /\
      descendants h' (h_root h') = map N.of_nat (seq 0 (length (h_nodes h))).
  Proof.
    intros h W. destruct (canonical_spec h W) as (Dn & Hi & P). set (ordered := descendants h (h_root h)) in *.
    assert (Start : canon_inv h ordered 0 h None (fun n => n)).
    { constructor; auto; [apply renamed_refl|intros i v L; lia| |left; split; [reflexivity|intros i L; lia]].
      intros y _. constructor. lia. }
    destruct (loop_spec h ordered Dn ordered 0 h None [] (fun n => n) Start) as (h1 & e & calls & s & E & C & Hs); auto; [cbn; lia|].
    assert (Len : length ordered = length (h_nodes h)) by (apply Permutation_length; exact P).
    assert (Nth : forall i v, nth_error ordered i = Some v -> s v = N.of_nat i).
    { intros i v A. apply (ci_placed _ _ _ _ _ _ C).
      - assert (i < length ordered) by (apply nth_error_Some; congruence). lia.
      - unfold at_. now rewrite Nat2N.id. }
    assert (Rt : s (h_root h) = 0%N).
    { destruct (canonical_head h W) as (l & Hl). fold ordered in Hl. apply (Nth 0). rewrite Hl. reflexivity. }
    assert (En : e = Some (s (h_entry h))).
    { destruct (ci_new _ _ _ _ _ _ C) as [[_ F]|[X _]]; [|exact X]. exfalso.
      assert (I : In (h_entry h) ordered) by (apply Hi; apply (wf_entry h W)). apply In_nth_error in I. destruct I as (i & I).
      apply (F (N.of_nat i)).
      - assert (i < length ordered) by (apply nth_error_Some; congruence). lia.
      - unfold at_. now rewrite Nat2N.id. }
    pose proof (ci_renamed _ _ _ _ _ _ C) as R.
    exists (set_entry (set_root h1 0%N) (s (h_entry h))), (rev calls), s.
    unfold canonicalize_nodes. fold ordered. rewrite E, En. split; [reflexivity|]. split; [destruct R; split; assumption|].
    split; [exact Hs|]. assert (Ms : map s ordered = map N.of_nat (seq 0 (length (h_nodes h)))) by (rewrite <- Len; now apply nth_seq_map).
    split; [exact Ms|]. cbn [set_entry set_root h_root h_entry h_meta]. split; [now rewrite Rt|]. split; [exact Rt|]. split; [reflexivity|]. split; [apply C|].
    rewrite <- Ms. unfold ordered, descendants. cbn [set_entry set_root h_root h_kids h_nodes].
    rewrite (rn_nodes _ _ _ R), map_length, <- (bfs_renamed (h_kids h) (h_kids h1) s); [|apply R].
    cbn [map]. now rewrite Rt.
  Qed.

  Lemma up_renamed : forall (f g : N -> option N) s, (forall n, g (s n) = option_map s (f n)) -> forall a b, up f a b -> up g (s a) (s b).
  Proof.
    intros f g s H a b U. induction U as [n|n p a E U IH]; [constructor|]. apply up_next with (s p); [|exact IH]. now rewrite H, E.
  Qed.

  Lemma renamed_wf : forall (h h' : hugr) s, wf h -> renamed h s h' -> (forall n, exists m, n = s m) ->
    h_root h' = s (h_root h) -> h_entry h' = s (h_entry h) -> wf h'.
  Proof.
    intros h h' s W R Su Er Ee.
    assert (Hn : forall n, In (s n) (h_nodes h') <-> In n (h_nodes h)).
    { intros n. rewrite (rn_nodes _ _ _ R), in_map_iff. split; [intros (x & E & I); apply (rn_inj _ _ _ R) in E; now subst|]. intros I. exists n. auto. }
    assert (Hk : forall a l, In (s a) (map s l) <-> In a l).
    { intros a l. rewrite in_map_iff. split; [intros (x & E & I); apply (rn_inj _ _ _ R) in E; now subst|]. intros I. exists a. auto. }
    assert (Dm : forall l, NoDup l -> NoDup (map s l)).
    { intros l D. induction D as [|x l Nx D IH]; [constructor|]. cbn [map]. constructor; [|exact IH]. now rewrite Hk. }
    constructor.
    - rewrite (rn_nodes _ _ _ R). apply Dm, (wf_nodup h W).
    - rewrite Er. apply Hn, (wf_root h W).
    - rewrite Ee. apply Hn, (wf_entry h W).
    - rewrite Er, (rn_parent _ _ _ R), (wf_top h W). reflexivity.
    - intros n I Ne. destruct (Su n) as (m & ->). apply Hn in I. rewrite Er in Ne.
      destruct (wf_parent h W m I) as (p & E & Ip); [congruence|]. exists (s p). rewrite (rn_parent _ _ _ R), E. split; [reflexivity|now apply Hn].
    - intros p c. destruct (Su p) as (p0 & ->). destruct (Su c) as (c0 & ->). rewrite (rn_kids _ _ _ R), (rn_parent _ _ _ R), Hk, (wf_kids h W).
      destruct (h_parent h c0) as [q|]; cbn; [|split; discriminate]. split; [congruence|]. intros E. injection E as E. apply (rn_inj _ _ _ R) in E. now subst.
    - intros p. destruct (Su p) as (p0 & ->). rewrite (rn_kids _ _ _ R). apply Dm, (wf_kids_once h W).
    - intros n Nn. destruct (Su n) as (m & ->). rewrite Hn in Nn. destruct (wf_unused h W m Nn) as [A B].
      now rewrite (rn_kids _ _ _ R), (rn_parent _ _ _ R), A, B.
    - intros n I. destruct (Su n) as (m & ->). apply Hn in I. rewrite Er. apply (up_renamed (h_parent h)); [apply R|]. now apply (wf_reach h W).
    - intros l I. rewrite (rn_links _ _ _ R) in I. apply in_map_iff in I. destruct I as ([[a i] [b j]] & <- & I).
      destruct (wf_links h W _ I) as [[A B] [C D]]. unfold out_port, in_port, move_link. cbn [fst snd] in *.
      rewrite !Hn, (rn_in _ _ _ R), (rn_out _ _ _ R). auto.
  Qed.

  Lemma apply_calls_onto : forall calls n, exists m, n = apply_calls calls m.
  Proof.
    induction calls as [|[a b] calls IH]; intros n; [now exists n|]. destruct (IH n) as (m & ->). exists (swapN b a m).
    unfold apply_calls. cbn [fold_left fst snd]. now rewrite swapN_invol.
  Qed.
End Canon.
