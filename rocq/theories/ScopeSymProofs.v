From Coq Require Import List Bool NArith Arith Lia Permutation.
From Verif Require Import ScopeModel ScopeSpec ScopeProofs.
Import ListNotations.

Lemma nodup_app_r {A} (l1 l2 : list A) : NoDup (l1 ++ l2) -> NoDup l2.
Proof. induction l1 as [|a l1 IH]; [auto|]. cbn. intros H. inversion H; auto. Qed.

Section Im.
  Context {A B : Type} (eqd : forall a b : A, {a = b} + {a <> b}).
  Notation ins := (im_insert (B:=B) eqd).

  Lemma im_insert_absent a (v : B) l : ~ In a (map fst l) -> ins a v l = l ++ [(a, v)].
  Proof.
    induction l as [|[b w] l IH]; cbn; [reflexivity|]. intros Hn.
    destruct (eqd a b) as [->|_]; [tauto|]. rewrite IH by tauto. reflexivity.
  Qed.

  Lemma im_index_none a (l : list (A * B)) : im_index eqd a l = None <-> ~ In a (map fst l).
  Proof. apply ix_of_none. Qed.

  Lemma im_get_cons a b (w : B) l : im_get eqd a ((b, w) :: l) = if eqd a b then Some w else im_get eqd a l.
  Proof.
    unfold im_get, im_index. cbn. destruct (eqd a b); [reflexivity|].
    destruct (ix_of eqd a (map fst l)); reflexivity.
  Qed.

  Lemma im_get_none a (l : list (A * B)) : im_get eqd a l = None <-> ~ In a (map fst l).
  Proof.
    induction l as [|[b w] l IH]; [cbn; tauto|]. rewrite im_get_cons. cbn.
    destruct (eqd a b) as [->|Hne]; [split; [discriminate|intros H; exfalso; apply H; auto]|].
    rewrite IH. split; [intros H [->|H']; tauto|tauto].
  Qed.

  Lemma im_get_insert a b (v : B) l : im_get eqd a (ins b v l) = if eqd a b then Some v else im_get eqd a l.
  Proof.
    induction l as [|[c w] l IH]; cbn [im_insert].
    - rewrite im_get_cons. destruct (eqd a b); reflexivity.
    - destruct (eqd b c) as [->|Hbc]; rewrite !im_get_cons.
      + destruct (eqd a c); reflexivity.
      + rewrite IH. destruct (eqd a c) as [->|]; [|reflexivity]. destruct (eqd c b); congruence.
  Qed.

  Lemma im_insert_keys a (v : B) l : map fst (ins a v l) =
    if in_dec eqd a (map fst l) then map fst l else map fst l ++ [a].
  Proof.
    destruct (in_dec eqd a (map fst l)) as [Hin|Hn].
    - induction l as [|[b w] l IH]; cbn in *; [contradiction|].
      destruct (eqd a b) as [->|Hne]; [reflexivity|]. cbn. rewrite IH; [reflexivity|].
      destruct Hin; [congruence|assumption].
    - rewrite im_insert_absent by assumption. rewrite map_app. reflexivity.
  Qed.

  (** Overwriting in place and writing the old value back by position undoes the insertion. *)
  Lemma im_set_back a (v : B) l old : im_get eqd a l = Some old ->
    exists i, im_index eqd a (ins a v l) = Some i /\ im_set_index i old (ins a v l) = Some l /\
              nth_error (ins a v l) i = Some (a, v).
  Proof.
    induction l as [|[b w] l IH]; [discriminate|]. rewrite im_get_cons. cbn [im_insert].
    destruct (eqd a b) as [->|Hne].
    - intros [= ->]. exists 0. unfold im_index. cbn. destruct (eqd b b); [|congruence]. auto.
    - intros Hg. destruct (IH Hg) as (i & H1 & H2 & H3). exists (S i). unfold im_index in *. cbn.
      destruct (eqd a b); [congruence|]. rewrite H1, H2. auto.
  Qed.

  Lemma im_insert_twice a (v w : B) l : ins a w (ins a v l) = ins a w l.
  Proof.
    induction l as [|[b u] l IH]; cbn.
    - destruct (eqd a a); [reflexivity|congruence].
    - destruct (eqd a b) as [->|Hne]; cbn.
      + destruct (eqd b b); [reflexivity|congruence].
      + destruct (eqd a b); [congruence|]. rewrite IH. reflexivity.
  Qed.

  Lemma im_insert_same a (old : B) l : im_get eqd a l = Some old -> ins a old l = l.
  Proof.
    induction l as [|[b u] l IH]; [discriminate|]. rewrite im_get_cons. cbn.
    destruct (eqd a b) as [->|Hne]; [congruence|]. intros H. rewrite IH by assumption. reflexivity.
  Qed.
End Im.

Section Sym.
  Context {K : Type} (keq : forall a b : K, {a = b} + {a <> b}).

  (** Declarations, newest first: (name, node, depth). *)
  Definition decl := (K * N * N)%type.
  Definition dkey (d : decl) : K := fst (fst d).
  Definition dnode (d : decl) : N := snd (fst d).

  Fixpoint syms (rl : list decl) : list (K * nat) :=
    match rl with [] => [] | d :: rl' => im_insert keq (dkey d) (length rl') (syms rl') end.
  Fixpoint binds_of (rl : list decl) : list (N * binding) :=
    match rl with
    | [] => []
    | d :: rl' =>
        binds_of rl' ++
        [(dnode d, mk_bind (snd d) (im_get keq (dkey d) (syms rl'))
           (match im_index keq (dkey d) (syms (d :: rl')) with Some i => i | None => 0 end))]
    end.

  Fixpoint rflat (fs : @sframes K) : list decl :=
    match fs with
    | [] => []
    | (r, ds) :: fs' => rev (map (fun kn => (fst kn, snd kn, N.of_nat (length fs'))) ds) ++ rflat fs'
    end.
  Fixpoint sscopes (fs : @sframes K) : list (N * nat) :=
    match fs with [] => [] | (r, ds) :: fs' => sscopes fs' ++ [(r, length (rflat fs'))] end.
  Definition sabs (fs : @sframes K) : sym_table :=
    mk_st (syms (rflat fs)) (binds_of (rflat fs)) (sscopes fs).

  Lemma binds_len rl : length (binds_of rl) = length rl.
  Proof. induction rl as [|d rl IH]; cbn; [reflexivity|]. rewrite app_length, IH. cbn. lia. Qed.

  Lemma binds_nodes rl : map fst (binds_of rl) = rev (map dnode rl).
  Proof. induction rl as [|d rl IH]; cbn; [reflexivity|]. rewrite map_app, IH. reflexivity. Qed.

  Lemma sscopes_len fs : length (sscopes fs) = length fs.
  Proof. induction fs as [|[r ds] fs IH]; cbn; [reflexivity|]. rewrite app_length, IH. cbn. lia. Qed.

  Lemma sscopes_regions fs : map fst (sscopes fs) = rev (map fst fs).
  Proof. induction fs as [|[r ds] fs IH]; cbn; [reflexivity|]. rewrite map_app, IH. reflexivity. Qed.

  Lemma syms_keys_in rl k : In k (map fst (syms rl)) <-> In k (map dkey rl).
  Proof.
    induction rl as [|d rl IH]; [tauto|]. cbn [syms map]. rewrite im_insert_keys.
    destruct (in_dec keq (dkey d) (map fst (syms rl))) as [Hin|Hn].
    - rewrite IH. split; [intros; right; assumption|]. intros [<-|H]; [apply IH, Hin|assumption].
    - rewrite in_app_iff. cbn. rewrite IH. tauto.
  Qed.

  (** Newest declaration of a name: remaining older declarations and the declaration. *)
  Fixpoint newest (k : K) (rl : list decl) : option (nat * decl) :=
    match rl with
    | [] => None
    | d :: rl' => if keq k (dkey d) then Some (length rl', d) else newest k rl'
    end.

  Lemma syms_get rl k : im_get keq k (syms rl) = option_map fst (newest k rl).
  Proof.
    induction rl as [|d rl IH]; [reflexivity|]. cbn [syms newest]. rewrite im_get_insert.
    destruct (keq k (dkey d)); [reflexivity|assumption].
  Qed.

  Lemma newest_nth rl k i d : newest k rl = Some (i, d) ->
    i < length rl /\ dkey d = k /\ In d rl /\
    exists b, nth_error (binds_of rl) i = Some (dnode d, b) /\ b_depth b = snd d.
  Proof.
    induction rl as [|d0 rl IH]; [discriminate|]. cbn [newest].
    destruct (keq k (dkey d0)) as [->|Hne].
    - intros [= <- <-]. cbn. repeat split; auto. eexists. split.
      { rewrite nth_error_app2, binds_len, Nat.sub_diag by (rewrite binds_len; lia). reflexivity. }
      reflexivity.
    - intros H. destruct (IH H) as (H1 & H2 & H3 & b & H4 & H5). cbn. repeat split; auto.
      exists b. split; [|assumption]. rewrite nth_error_app1; [assumption|]. rewrite binds_len. assumption.
  Qed.

  Lemma newest_none rl k : newest k rl = None <-> ~ In k (map dkey rl).
  Proof.
    rewrite <- syms_keys_in, <- (im_get_none keq), syms_get. destruct (newest k rl); cbn; split; congruence.
  Qed.

  Lemma newest_app k rl1 rl2 : newest k (rl1 ++ rl2) =
    match newest k rl1 with Some (i, d) => Some (i + length rl2, d) | None => newest k rl2 end.
  Proof.
    induction rl1 as [|d rl1 IH]; cbn; [reflexivity|]. rewrite app_length.
    destruct (keq k (dkey d)); [reflexivity|assumption].
  Qed.

  Lemma newest_in k rl i d : newest k rl = Some (i, d) -> In d rl /\ dkey d = k.
  Proof. intros H. apply newest_nth in H. tauto. Qed.

  (** *** Removing the newest declaration *)
  Lemma pop_one d rl sc : st_pop_binding (mk_st (syms (d :: rl)) (binds_of (d :: rl)) sc)
    = Some (mk_st (syms rl) (binds_of rl) sc).
  Proof.
    unfold st_pop_binding. cbn [st_bindings st_symbols st_scopes binds_of].
    rewrite rev_app_distr. cbn [rev app b_shadows b_sym].
    rewrite removelast_app by discriminate. cbn [removelast]. rewrite app_nil_r. cbn [syms].
    destruct (im_get keq (dkey d) (syms rl)) as [old|] eqn:G.
    - destruct (im_set_back keq (dkey d) (length rl) (syms rl) old G) as (i & H1 & H2 & _).
      rewrite H1, H2. reflexivity.
    - apply im_get_none in G. rewrite im_insert_absent by assumption.
      rewrite removelast_app by discriminate. cbn. rewrite app_nil_r. reflexivity.
  Qed.

  Lemma pop_many pre rl sc : st_pop_n (length pre) (mk_st (syms (pre ++ rl)) (binds_of (pre ++ rl)) sc)
    = Some (mk_st (syms rl) (binds_of rl) sc).
  Proof.
    induction pre as [|d pre IH]; [reflexivity|]. cbn [length st_pop_n app].
    rewrite pop_one. exact IH.
  Qed.

  Lemma index_upsert k (v : nat) l : exists i, im_index keq k (im_insert keq k v l) = Some i.
  Proof.
    destruct (im_index keq k (im_insert keq k v l)) eqn:E; [eauto|].
    apply im_index_none in E. exfalso. apply E. rewrite im_insert_keys.
    destruct (in_dec keq k (map fst l)); [assumption|]. apply in_or_app. right. left. reflexivity.
  Qed.

  (** *** Frames and declarations *)
  Lemma rflat_in fs d : In d (rflat fs) -> exists f, In f fs /\ In (dkey d, dnode d) (snd f) /\
    (snd d < N.of_nat (length fs))%N.
  Proof.
    induction fs as [|[r ds] fs IH]; cbn [rflat]; [intros []|]. intros H. apply in_app_or in H as [H|H].
    - rewrite <- in_rev in H. apply in_map_iff in H as ([k n] & <- & Hin).
      exists (r, ds). cbn in *. split; [auto|]. split; [assumption|lia].
    - destruct (IH H) as (f & H1 & H2 & H3). exists f. cbn [In length]. split; [auto|]. split; [assumption|lia].
  Qed.

  Lemma rflat_decl fs k n : declared fs k n <-> exists d, In d (rflat fs) /\ dkey d = k /\ dnode d = n.
  Proof.
    split.
    - intros (f & Hf & Hin). induction fs as [|[r ds] fs IH]; [contradiction|]. cbn [rflat].
      destruct Hf as [<-|Hf].
      + exists (k, n, N.of_nat (length fs)). split; [|auto]. apply in_or_app. left. rewrite <- in_rev.
        apply in_map_iff. exists (k, n). auto.
      + destruct (IH Hf) as (d & H1 & H2). exists d. split; [|assumption]. apply in_or_app. auto.
    - intros (d & Hd & <- & <-). destruct (rflat_in fs d Hd) as (f & H1 & H2 & _). exists f. auto.
  Qed.

  Definition sinv (fs : @sframes K) : Prop :=
    NoDup (map fst fs) /\ (N.of_nat (length fs) < 65536)%N /\ NoDup (map dnode (rflat fs)) /\
    Forall (fun f => NoDup (map fst (snd f))) fs.

  Lemma newest_rev_map dp (ds : list (K * N)) k i d :
    newest k (rev (map (fun kn => (fst kn, snd kn, dp)) ds)) = Some (i, d) ->
    In (k, dnode d) ds /\ snd d = dp.
  Proof.
    intros H. apply newest_in in H as [Hin Hk]. rewrite <- in_rev in Hin.
    apply in_map_iff in Hin as ([k' n'] & <- & Hin). cbn in *. subst. auto.
  Qed.

  Lemma newest_rev_none dp (ds : list (K * N)) k :
    newest k (rev (map (fun kn => (fst kn, snd kn, dp)) ds)) = None <-> ~ In k (map fst ds).
  Proof.
    rewrite newest_none, map_rev, <- in_rev, map_map. unfold dkey; cbn. tauto.
  Qed.

  Lemma binds_newest fs k i d : newest k (rflat fs) = Some (i, d) -> binds fs k (dnode d).
  Proof.
    induction fs as [|[r ds] fs IH]; [discriminate|]. cbn [rflat]. rewrite newest_app.
    match goal with |- context [newest k (rev ?l)] => destruct (newest k (rev l)) as [[j d']|] eqn:E end.
    - intros [= _ <-]. apply newest_rev_map in E as [E _]. constructor; assumption.
    - intros H. apply newest_rev_none in E. apply B_outer; auto.
  Qed.

  Lemma binds_det (fs : @sframes K) k n n' : Forall (fun f => NoDup (map fst (snd f))) fs ->
    binds fs k n -> binds fs k n' -> n = n'.
  Proof.
    intros HF H; revert n'. induction H as [r ds fs k n Hin|r ds fs k n Hn Hb IH]; intros n' H'.
    - inversion H'; subst; [|exfalso; match goal with Hx : ~ _ |- _ => apply Hx end; apply in_map_iff; exists (k, n); auto].
      inversion HF as [|? ? Hnd _]; subst. cbn in Hnd.
      clear - Hin Hnd H4. induction ds as [|[a b] ds IH]; [contradiction|]. cbn in Hnd.
      inversion Hnd as [|? ? Hni Hnd']; subst. destruct Hin as [E1|Hin], H4 as [E2|H4].
      + congruence.
      + exfalso. apply Hni. injection E1 as -> ->. apply in_map_iff. exists (k, n'). auto.
      + exfalso. apply Hni. injection E2 as -> ->. apply in_map_iff. exists (k, n). auto.
      + auto.
    - inversion H'; subst; [exfalso; apply Hn; apply in_map_iff; exists (k, n'); auto|].
      inversion HF; auto.
  Qed.

  (** *** Visibility query *)
  Lemma syms_nth_ext d rl s k v : nth_error (syms rl) s = Some (k, v) ->
    exists v', nth_error (syms (d :: rl)) s = Some (k, v').
  Proof.
    cbn [syms]. generalize (syms rl) as l. intros l; revert s. induction l as [|[b w] l IH]; intros s.
    - destruct s; discriminate.
    - cbn [im_insert]. destruct (keq (dkey d) b) as [<-|Hne].
      + destruct s; cbn; [intros [= <- <-]; eauto|eauto].
      + destruct s; cbn; [eauto|apply IH].
  Qed.

  Lemma syms_len rl : length (syms rl) <= length rl.
  Proof.
    induction rl as [|d rl IH]; [cbn; lia|]. cbn [syms length].
    rewrite <- (map_length fst), im_insert_keys.
    destruct (in_dec keq (dkey d) (map fst (syms rl))); rewrite ?app_length, map_length; cbn; lia.
  Qed.

  Lemma syms_nth_get rl s k v : nth_error (syms rl) s = Some (k, v) -> NoDup (map fst (syms rl)) ->
    im_get keq k (syms rl) = Some v.
  Proof.
    generalize (syms rl) as l. intros l; revert s. induction l as [|[b w] l IH]; intros s Hn Hnd.
    - destruct s; discriminate.
    - rewrite im_get_cons. inversion Hnd as [|? ? Hni Hnd']; subst. destruct s; cbn in Hn.
      + injection Hn as <- <-. destruct (keq b b); [reflexivity|congruence].
      + destruct (keq k b) as [<-|_]; [|eauto]. exfalso. apply Hni. apply nth_error_In in Hn.
        apply in_map_iff. exists (k, v). auto.
  Qed.

  Lemma syms_nodup rl : NoDup (map fst (syms rl)).
  Proof.
    induction rl as [|d rl IH]; [constructor|]. cbn [syms]. rewrite im_insert_keys.
    destruct (in_dec keq (dkey d) (map fst (syms rl))) as [H|H]; [assumption|].
    clear - IH H. induction (map fst (syms rl)) as [|a l IHl]; cbn; [constructor; [tauto|constructor]|].
    inversion IH as [|? ? H1 H2]; subst. cbn in H. constructor; [|apply IHl; tauto].
    rewrite in_app_iff. cbn. intros [?|[?|[]]]; [tauto|]. subst. tauto.
  Qed.

  Lemma binds_lookup rl n b : NoDup (map dnode rl) -> im_get N.eq_dec n (binds_of rl) = Some b ->
    exists pre d rl', rl = pre ++ d :: rl' /\ dnode d = n /\
      im_index keq (dkey d) (syms (d :: rl')) = Some (b_sym b).
  Proof.
    induction rl as [|d rl IH]; [discriminate|]. intros Hnd. cbn [binds_of].
    cbn [map] in Hnd. inversion Hnd as [|? ? Hni Hnd']; subst.
    assert (Hni' : ~ In (dnode d) (map fst (binds_of rl))).
    { rewrite binds_nodes, <- in_rev. assumption. }
    rewrite <- (im_insert_absent N.eq_dec) by assumption. rewrite im_get_insert.
    destruct (N.eq_dec n (dnode d)) as [->|Hne].
    - intros [= <-]. exists [], d, rl. split; [reflexivity|]. split; [reflexivity|]. cbn [b_sym].
      destruct (index_upsert (dkey d) (length rl) (syms rl)) as [i Hi]. cbn [syms]. rewrite Hi. reflexivity.
    - intros H. destruct (IH Hnd' H) as (pre & d' & rl' & -> & H1 & H2). exists (d :: pre), d', rl'. auto.
  Qed.

  Lemma binds_lookup_none rl n : im_get N.eq_dec n (binds_of rl) = None -> ~ In n (map dnode rl).
  Proof. intros H. apply im_get_none in H. rewrite binds_nodes, <- in_rev in H. assumption. Qed.

  Lemma syms_pos_stable pre d rl' s : im_index keq (dkey d) (syms (d :: rl')) = Some s ->
    exists v d0, nth_error (syms (pre ++ d :: rl')) s = Some (dkey d, v) /\
      newest (dkey d) (pre ++ d :: rl') = Some (v, d0).
  Proof.
    intros Hs. assert (E : exists v, nth_error (syms (pre ++ d :: rl')) s = Some (dkey d, v)).
    { induction pre as [|p pre [v IH]].
      - unfold im_index in Hs. apply ix_of_some in Hs as [[Hp _] _]. cbn [app].
        rewrite nth_error_map in Hp. destruct (nth_error (syms (d :: rl')) s) as [[k' v]|] eqn:E; cbn in Hp; [|discriminate].
        injection Hp as ->. exists v. reflexivity.
      - cbn [app]. eapply syms_nth_ext. exact IH. }
    destruct E as [v E]. exists v. pose proof E as E0.
    apply syms_nth_get in E; [|apply syms_nodup]. rewrite syms_get in E.
    destruct (newest (dkey d) (pre ++ d :: rl')) as [[i d']|]; cbn in E; [|discriminate].
    injection E as ->. exists d'. auto.
  Qed.

  Lemma visible_cases fs n : sinv fs ->
    exists b, st_visible (K:=K) n (sabs fs) = Some b /\ visible_sound fs n b /\
      (s_no_shadow fs -> visible_exact fs n b).
  Proof.
    intros (_ & _ & Hnd & HF). unfold st_visible, sabs; cbn [st_bindings st_symbols].
    destruct (im_get N.eq_dec n (binds_of (rflat fs))) as [b|] eqn:G.
    - destruct (binds_lookup _ _ _ Hnd G) as (pre & d & rl' & Heq & Hn & Hs).
      destruct (syms_pos_stable pre d rl' _ Hs) as (v & d0 & Hv & N0). rewrite <- Heq in Hv, N0.
      rewrite Hv. exists (v =? b_sym b). split; [reflexivity|].
      assert (Hsv : b_sym b <= length rl').
      { unfold im_index in Hs. apply ix_of_some in Hs as [_ Hs]. rewrite map_length in Hs.
        pose proof (syms_len (d :: rl')). cbn [length] in *. lia. }
      assert (Hd : declared fs (dkey d) n).
      { apply rflat_decl. exists d. rewrite Heq. split; [apply in_elt|auto]. }
      assert (Hcase : (v = length rl' /\ binds fs (dkey d) n) \/
                      (length rl' < v /\ exists d', In d' pre /\ dkey d' = dkey d)).
      { pose proof (binds_newest _ _ _ _ N0) as Hb.
        rewrite Heq, newest_app in N0.
        destruct (newest (dkey d) pre) as [[j d1]|] eqn:N1.
        - injection N0 as <- <-. right. cbn [length]. split; [lia|].
          apply newest_in in N1. exists d1. auto.
        - cbn [newest] in N0. destruct (keq (dkey d) (dkey d)); [|congruence].
          injection N0 as <- <-. left. split; [reflexivity|]. rewrite <- Hn. assumption. }
      split.
      + intros Hb. apply Nat.eqb_eq in Hb. exists (dkey d). split; [assumption|].
        destruct Hcase as [[_ ?]|[? _]]; [assumption|lia].
      + intros Hns.
        assert (Hnk : NoDup (map dkey (rflat fs))).
        { clear - Hns. unfold s_no_shadow in Hns. revert Hns.
          assert (HP : forall fs, Permutation (map dkey (rflat fs)) (map fst (concat (map (fun f : N * list (K*N) => snd f) fs)))).
          { intros fs0. induction fs0 as [|[r ds] fs0 IH]; [constructor|]. cbn. rewrite !map_app.
            apply Permutation_app; [|exact IH]. rewrite map_rev, map_map.
            apply Permutation_sym. unfold dkey; cbn.
            apply Permutation_rev. }
          intros H. eapply Permutation_NoDup; [apply Permutation_sym, HP|exact H]. }
        rewrite Heq, map_app in Hnk. cbn [map] in Hnk.
        pose proof (NoDup_remove_2 _ _ _ Hnk) as Hni. rewrite in_app_iff in Hni.
        destruct Hcase as [[Hv' Hb]|[_ (d' & H1 & H2)]].
        2:{ exfalso. apply Hni. left. rewrite <- H2. apply in_map. assumption. }
        assert (Hlen : forall rl, NoDup (map dkey rl) -> map fst (syms rl) = rev (map dkey rl)).
        { induction rl as [|x rl IH]; intros Hx; [reflexivity|]. inversion Hx; subst. cbn [syms map rev].
          rewrite im_insert_keys. destruct (in_dec keq (dkey x) (map fst (syms rl))) as [Hi|Hi].
          - apply syms_keys_in in Hi. contradiction.
          - rewrite IH by assumption. reflexivity. }
        assert (Hnk' : NoDup (map dkey (d :: rl'))).
        { clear - Hnk. cbn [map]. induction (map dkey pre); [assumption|]. inversion Hnk; auto. }
        assert (Hsym : b_sym b = length rl').
        { unfold im_index in Hs. rewrite (Hlen (d :: rl') Hnk') in Hs. cbn [map rev] in Hs.
          rewrite ix_of_app_r in Hs.
          - cbn in Hs. destruct (keq (dkey d) (dkey d)); [|congruence]. cbn in Hs.
            rewrite rev_length, map_length in Hs. injection Hs as <-. lia.
          - rewrite <- in_rev. inversion Hnk'; assumption. }
        unfold visible_exact. rewrite Nat.eqb_eq. split; [|intros _; lia].
        intros _. exists (dkey d). auto.
    - apply binds_lookup_none in G. exists false. split; [reflexivity|].
      assert (Hno : forall k, ~ declared fs k n).
      { intros k Hk. apply rflat_decl in Hk as (d & Hd & _ & <-). apply G. apply in_map. assumption. }
      split; [intros H; discriminate|]. intros _. split; [discriminate|].
      intros (k & Hk & _). exfalso. exact (Hno k Hk).
  Qed.

  Definition s_ok_noshadow (fs : @sframes K) (o : sym_op (K:=K)) : Prop :=
    s_ok_op fs o /\ match o with SInsert k _ => forall n, ~ declared fs k n | _ => True end.

  Lemma dec_declared_node (fs : @sframes K) n : {k | declared fs k n} + {forall k : K, ~ declared fs k n}.
  Proof.
    destruct (find (fun d => (dnode d =? n)%N) (rflat fs)) as [d|] eqn:E.
    - left. exists (dkey d). apply find_some in E as [H1 H2]. apply N.eqb_eq in H2.
      apply rflat_decl. exists d. auto.
    - right. intros k Hk. apply rflat_decl in Hk as (d & Hd & _ & <-).
      pose proof (find_none _ _ E d Hd) as H. cbn in H. rewrite N.eqb_refl in H. discriminate.
  Qed.

  Lemma s_step_sim (vr : @sframes K -> N -> bool -> Prop) fs o : sinv fs -> s_ok_op fs o ->
    (forall n b, st_visible (K:=K) n (sabs fs) = Some b -> vr fs n b) ->
    (s_misuse fs o /\ st_step keq (sabs fs) o = None) \/
    (exists fs' r, s_answers vr fs o fs' r /\ st_step keq (sabs fs) o = Some (sabs fs', r) /\ sinv fs').
  Proof.
    intros HI Hok Hvr. pose proof HI as (Hreg & Hdep & Hnode & HF).
    destruct o as [r| |k n|k|n|r|dq|].
    - right. destruct Hok as [Hr Hl]. exists ((r, []) :: fs), SUnit. split; [constructor|]. split.
      + unfold st_step, st_enter, sabs; cbn [st_symbols st_bindings st_scopes rflat map rev app sscopes].
        rewrite binds_len, im_insert_absent; [reflexivity|]. rewrite sscopes_regions, <- in_rev. assumption.
      + repeat split; cbn [map rflat rev app length]; try assumption.
        * constructor; assumption.
        * lia.
        * constructor; [constructor|assumption].
    - destruct fs as [|[r ds] fs]; [left; split; [split; auto|reflexivity]|]. right.
      exists fs, SUnit. split; [constructor|]. split.
      + unfold st_step, st_exit, sabs; cbn [st_symbols st_bindings st_scopes rflat sscopes].
        rewrite rev_app_distr. cbn [rev app]. rewrite removelast_app by discriminate. cbn [removelast].
        set (pre := rev (map _ ds)). cbn [fst snd].
        rewrite app_nil_r, binds_len, app_length.
        rewrite Nat.add_sub. pose proof (pop_many pre (rflat fs) (sscopes fs)) as Hp.
        unfold decl in Hp. rewrite Hp. reflexivity.
      + inversion Hreg; inversion HF; subst. cbn [rflat length] in *. repeat split; try assumption; [lia|].
        rewrite map_app in Hnode. exact (nodup_app_r _ _ Hnode).
    - destruct fs as [|[r ds] fs]; [left; split; [split; [reflexivity|right; eauto]|reflexivity]|]. right.
      assert (Hlen : N.of_nat (length (sscopes ((r, ds) :: fs))) = (N.of_nat (length fs) + 1)%N)
        by (rewrite sscopes_len; cbn [length]; lia).
      assert (Hsm : (N.of_nat (length fs) + 1 < 65536)%N) by (cbn [length] in Hdep; lia).
      destruct (in_dec keq k (map fst ds)) as [Hin|Hn].
      + apply in_map_iff in Hin as ([k' m] & Hk' & Hin). cbn in Hk'; subst k'.
        (* found in the top frame *)
        assert (Hnew : exists i d, newest k (rflat ((r, ds) :: fs)) = Some (i, d) /\ dnode d = m /\ snd d = N.of_nat (length fs)).
        { cbn [rflat]. rewrite newest_app.
          match goal with |- context [newest k (rev ?l)] => destruct (newest k (rev l)) as [[i d]|] eqn:E end.
          - exists (i + length (rflat fs)), d. split; [reflexivity|].
            apply newest_rev_map in E as [E1 E2]. split; [|assumption].
            eapply (binds_det ((r, ds) :: fs)); [exact HF| |]; constructor; eassumption.
          - apply newest_rev_none in E. exfalso. apply E. apply in_map_iff. exists (k, m). auto. }
        destruct Hnew as (i & d & Hnew & Hm & Hdd).
        destruct (newest_nth _ _ _ _ Hnew) as (_ & _ & _ & b & Hb & Hbd).
        exists ((r, ds) :: fs), (SErrDup k n m). split; [constructor; assumption|]. split; [|assumption].
        unfold st_step, st_insert. cbv zeta. replace (st_scopes (sabs ((r, ds) :: fs))) with (sscopes ((r, ds) :: fs)) by reflexivity. rewrite Hlen, u16_small by assumption.
        rewrite (proj2 (N.eqb_neq (N.of_nat (length fs) + 1) 0)) by lia.
        unfold sabs. cbn [st_symbols st_bindings st_scopes].
        destruct (index_upsert k (length (binds_of (rflat ((r, ds) :: fs)))) (syms (rflat ((r, ds) :: fs)))) as [ix Hix].
        rewrite Hix, syms_get, Hnew. cbn [option_map fst]. rewrite Hb, Hbd, Hdd.
        replace (N.of_nat (length fs) + 1 - 1)%N with (N.of_nat (length fs)) by lia. rewrite N.eqb_refl.
        rewrite im_insert_twice, im_insert_same by (rewrite syms_get, Hnew; reflexivity). rewrite Hm. reflexivity.
      + assert (Hfl : rflat ((r, ds ++ [(k, n)]) :: fs) = (k, n, N.of_nat (length fs)) :: rflat ((r, ds) :: fs)).
        { cbn [rflat]. rewrite map_app, rev_app_distr. reflexivity. }
        exists ((r, ds ++ [(k, n)]) :: fs), SUnit. split; [constructor; assumption|]. split.
        * unfold st_step, st_insert. cbv zeta. replace (st_scopes (sabs ((r, ds) :: fs))) with (sscopes ((r, ds) :: fs)) by reflexivity. rewrite Hlen, u16_small by assumption.
          rewrite (proj2 (N.eqb_neq (N.of_nat (length fs) + 1) 0)) by lia.
          unfold sabs. cbn [st_symbols st_bindings st_scopes].
          rewrite binds_len.
          replace (N.of_nat (length fs) + 1 - 1)%N with (N.of_nat (length fs)) by lia.
          rewrite Hfl. cbn [sscopes]. cbn [syms binds_of]. unfold dkey, dnode. cbn [fst snd].
          set (rl := rflat ((r, ds) :: fs)) in *.
          destruct (index_upsert k (length rl) (syms rl)) as [ix Hix]. rewrite Hix.
          assert (Hni : ~ In n (map fst (binds_of rl))).
          { rewrite binds_nodes, <- in_rev. intros Hx. apply in_map_iff in Hx as (d & <- & Hd).
            apply (Hok (dkey d)). apply rflat_decl. exists d. auto. }
          rewrite !(im_insert_absent N.eq_dec) by assumption.
          rewrite syms_get. destruct (newest k rl) as [[i d]|] eqn:Hnew; cbn [option_map fst]; [|reflexivity].
          destruct (newest_nth _ _ _ _ Hnew) as (_ & _ & _ & b & Hb & Hbd). rewrite Hb, Hbd.
          assert (Hlt : (snd d < N.of_nat (length fs))%N).
          { unfold rl in Hnew. cbn [rflat] in Hnew. rewrite newest_app in Hnew.
            match type of Hnew with context [newest k (rev ?l)] => destruct (newest k (rev l)) as [[j d']|] eqn:E end.
            - apply newest_rev_map in E as [E _]. exfalso. apply Hn. apply in_map_iff. exists (k, dnode d'). auto.
            - apply newest_in in Hnew as [Hnew _]. apply rflat_in in Hnew as (f & _ & _ & H). assumption. }
          rewrite (proj2 (N.eqb_neq (snd d) (N.of_nat (length fs)))) by lia. reflexivity.
        * inversion Hreg; inversion HF; subst. repeat split; try assumption.
          -- rewrite Hfl. cbn [map]. constructor; [|exact Hnode].
             unfold dnode at 1; cbn [fst snd]. intros Hx. apply in_map_iff in Hx as (d & Hdn & Hd).
             apply (Hok (dkey d)). apply rflat_decl. exists d. auto.
          -- constructor; [|assumption]. cbn [snd] in *. rewrite map_app. cbn.
             clear - Hn H5. induction (map fst ds) as [|a l IHl]; cbn; [constructor; [tauto|constructor]|].
             inversion H5; subst. cbn in Hn. constructor; [|apply IHl; tauto].
             rewrite in_app_iff. cbn. intros [?|[?|[]]]; [tauto|]. subst. tauto.
    - right. unfold st_step, st_resolve, sabs; cbn [st_symbols st_bindings st_scopes].
      rewrite syms_get. destruct (newest k (rflat fs)) as [[i d]|] eqn:Hnew; cbn [option_map fst].
      + destruct (newest_nth _ _ _ _ Hnew) as (_ & _ & _ & b & Hb & _). rewrite Hb. cbn [option_map fst].
        exists fs, (SNode (dnode d)). split; [constructor; eapply binds_newest; eassumption|]. split; [reflexivity|assumption].
      + exists fs, (SErrUnknown k). split; [|split; [reflexivity|assumption]]. constructor.
        intros n Hd. apply rflat_decl in Hd as (d & Hd & Hk & _). apply newest_none in Hnew. apply Hnew.
        rewrite <- Hk. apply in_map. assumption.
    - right. destruct (visible_cases fs n HI) as (b & Hb & _). exists fs, (SBool b).
      split; [constructor; apply Hvr; assumption|]. split; [|assumption]. cbn [st_step]. rewrite Hb. reflexivity.
    - right. cbn [st_step]. unfold st_region_to_depth, im_index, sabs; cbn [st_scopes]. rewrite sscopes_regions.
      destruct (ix_of N.eq_dec r (rev (map fst fs))) as [i|] eqn:E; cbn [option_map].
      + apply ix_of_some in E as [[E _] Hi]. rewrite rev_length, map_length in Hi.
        exists fs, (SOptN (Some (N.of_nat i))). split; [constructor; assumption|]. split; [|assumption].
        rewrite u16_small by lia. reflexivity.
      + apply ix_of_none in E. rewrite <- in_rev in E. exists fs, (SOptN None).
        split; [constructor; assumption|]. split; [reflexivity|assumption].
    - right. exists fs. eexists. split; [constructor|]. split; [|assumption]. cbn [st_step].
      unfold st_depth_to_region, sabs; cbn [st_scopes]. rewrite <- nth_error_map, sscopes_regions. reflexivity.
    - right. exists [], SUnit. split; [constructor|]. split; [reflexivity|].
      repeat split; cbn; try constructor; lia.
  Qed.

  Lemma s_ok_dec (fs : @sframes K) o : s_ok_op fs o \/ ~ s_ok_op fs o.
  Proof.
    destruct o as [r| |k n|k|n|r|dq|]; cbn; auto.
    - destruct (in_dec N.eq_dec r (map fst fs)); [right; tauto|].
      destruct (N.lt_decidable (N.of_nat (length fs)) 65535); [left|right]; tauto.
    - destruct (dec_declared_node fs n) as [[k' Hk']|H]; [right|left; assumption].
      intros H. exact (H k' Hk').
  Qed.

  Lemma sym_follows ops :
    follows s_ok_op (s_answers visible_sound) s_misuse [] ops (trace (st_step keq) st_new ops).
  Proof.
    change st_new with (sabs []). apply sim_follows with (Inv := sinv).
    - intros fs o HI. destruct (s_ok_dec fs o) as [Hok|Hok]; [right|left; assumption].
      destruct (s_step_sim visible_sound fs o HI Hok) as [H|H]; [|left; assumption|right; split; assumption].
      intros n b Hb. destruct (visible_cases fs n HI) as (b' & Hb' & Hs & _). replace b with b' by congruence. assumption.
    - repeat split; cbn; try constructor; lia.
  Qed.

  Lemma declared_key_dec (fs : @sframes K) (k : K) : {n | declared fs k n} + {forall n, ~ declared fs k n}.
  Proof.
    destruct (newest k (rflat fs)) as [[i d]|] eqn:E.
    - left. exists (dnode d). apply newest_in in E as [H1 H2]. apply rflat_decl. exists d. auto.
    - right. intros n Hd. apply rflat_decl in Hd as (d & Hd & Hk & _). apply newest_none in E. apply E.
      rewrite <- Hk. apply in_map. assumption.
  Qed.

  Lemma no_shadow_insert r ds fs (k : K) n : s_no_shadow ((r, ds) :: fs) ->
    (forall m, ~ declared ((r, ds) :: fs) k m) -> s_no_shadow ((r, ds ++ [(k, n)]) :: fs).
  Proof.
    unfold s_no_shadow. cbn. intros Hnd Hno. rewrite !map_app in *. cbn.
    rewrite <- app_assoc. cbn. apply Permutation_NoDup with (l := k :: map fst ds ++ map fst (concat (map snd fs))).
    - apply Permutation_middle.
    - constructor; [|assumption]. intros H. apply in_app_or in H as [H|H].
      + apply in_map_iff in H as ([k' m] & <- & H). apply (Hno m). exists (r, ds). cbn. auto.
      + apply in_map_iff in H as ([k' m] & <- & H). apply in_concat in H as (l & Hl & H).
        apply in_map_iff in Hl as (f & <- & Hf). apply (Hno m). exists f. cbn. auto.
  Qed.

  Lemma sym_follows_no_shadow ops :
    follows s_ok_noshadow (s_answers visible_exact) s_misuse [] ops (trace (st_step keq) st_new ops).
  Proof.
    change st_new with (sabs []). apply sim_follows with (Inv := fun fs => sinv fs /\ s_no_shadow fs).
    - intros fs o [HI HS].
      assert (Hdec : s_ok_noshadow fs o \/ ~ s_ok_noshadow fs o).
      { unfold s_ok_noshadow. destruct (s_ok_dec fs o) as [Hok|Hok]; [|right; tauto].
        destruct o as [r| |k n|k|n|r|dq|]; try (left; tauto).
        destruct (declared_key_dec fs k) as [[m Hm]|H]; [right|left; tauto]. intros [_ H]. exact (H m Hm). }
      destruct Hdec as [[Hok Hns]|Hok]; [right|left; assumption].
      destruct (s_step_sim visible_exact fs o HI Hok) as [H|(fs' & r & Ha & Hst & HI')]; [|left; assumption|].
      + intros n b Hb. destruct (visible_cases fs n HI) as (b' & Hb' & _ & He). replace b with b' by congruence. auto.
      + right. split; [split; assumption|]. exists fs', r. split; [assumption|]. split; [assumption|]. split; [assumption|].
        inversion Ha; subst; try assumption.
        * unfold s_no_shadow in *. cbn. destruct f. cbn in HS. rewrite map_app in HS.
          clear - HS. induction (map fst l) as [|a l' IH]; [assumption|]. inversion HS; auto.
        * apply no_shadow_insert; assumption.
        * constructor.
    - repeat split; cbn; try constructor; lia.
  Qed.
End Sym.
