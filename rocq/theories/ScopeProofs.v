From Coq Require Import List Bool NArith Arith Lia.
From Verif Require Import ScopeModel ScopeSpec.
Import ListNotations.

(** ** Generic simulation *)
Section Sim.
  Context {F S O R : Type} (ok : F -> O -> Prop) (ans : F -> O -> F -> R -> Prop)
          (misuse : F -> O -> Prop) (step : S -> O -> option (S * R)) (abs : F -> S) (Inv : F -> Prop).
  Hypothesis sim : forall fs o, Inv fs ->
    (~ ok fs o) \/ (misuse fs o /\ step (abs fs) o = None) \/
    (ok fs o /\ exists fs' r, ans fs o fs' r /\ step (abs fs) o = Some (abs fs', r) /\ Inv fs').

  Lemma sim_follows ops : forall fs, Inv fs -> follows ok ans misuse fs ops (trace step (abs fs) ops).
  Proof.
    induction ops as [|o ops IH]; intros fs HI; cbn [trace]; [constructor|].
    destruct (sim fs o HI) as [H|[[H E]|[Hok (fs' & r & Ha & E & HI')]]].
    - apply FO_undisciplined, H.
    - rewrite E. apply FO_misuse, H.
    - rewrite E. destruct (trace step (abs fs') ops) as [rs p] eqn:T.
      eapply FO_step; [exact Hok|exact Ha|]. rewrite <- T. apply IH, HI'.
  Qed.
End Sim.

(** ** Insertion-ordered sets *)
Section Ix.
  Context {A : Type} (eqd : forall a b : A, {a = b} + {a <> b}).

  Lemma ix_of_some a l i : ix_of eqd a l = Some i -> at_pos a l i /\ i < length l.
  Proof.
    revert i; induction l as [|b l IH]; intros i; cbn; [discriminate|].
    destruct (eqd a b) as [->|Hne].
    - intros [= <-]. split; [|lia]. split; [reflexivity|]. intros j Hj; lia.
    - destruct (ix_of eqd a l) as [j|]; cbn; [|discriminate]. intros [= <-].
      destruct (IH j eq_refl) as [[H1 H2] H3]. split; [|lia]. split; [exact H1|].
      intros [|j'] Hj; cbn; [congruence|]. apply H2. lia.
  Qed.

  Lemma ix_of_none a l : ix_of eqd a l = None <-> ~ In a l.
  Proof.
    induction l as [|b l IH]; cbn; [tauto|].
    destruct (eqd a b) as [->|Hne]; [split; [discriminate|intros H; exfalso; apply H; auto]|].
    destruct (ix_of eqd a l); cbn.
    - split; [discriminate|]. intros H. exfalso. assert (C : Some n = None) by (apply IH; tauto). discriminate.
    - split; [|reflexivity]. intros _ [->|Hin]; [congruence|]. apply IH in Hin; auto.
  Qed.

  Lemma ix_of_app_r a l1 l2 : ~ In a l1 ->
    ix_of eqd a (l1 ++ l2) = option_map (Nat.add (length l1)) (ix_of eqd a l2).
  Proof.
    induction l1 as [|b l1 IH]; cbn; intros Hn.
    - destruct (ix_of eqd a l2); reflexivity.
    - destruct (eqd a b) as [->|_]; [tauto|]. rewrite IH by tauto.
      destruct (ix_of eqd a l2); reflexivity.
  Qed.

  Lemma ix_of_app_l a l1 l2 i : ix_of eqd a l1 = Some i -> ix_of eqd a (l1 ++ l2) = Some i.
  Proof.
    revert i; induction l1 as [|b l1 IH]; intros i; cbn; [discriminate|].
    destruct (eqd a b); [auto|]. destruct (ix_of eqd a l1) as [j|]; cbn; [|discriminate].
    intros [= <-]. rewrite (IH j eq_refl). reflexivity.
  Qed.
End Ix.

Lemma u16_small n : (n < 65536)%N -> u16 n = n.
Proof. intros; unfold u16; apply N.mod_small; assumption. Qed.
Lemma u32_small n : (n < 4294967296)%N -> u32 n = n.
Proof. intros; unfold u32; apply N.mod_small; assumption. Qed.

Lemma of_nat_len_snoc {A} (l : list A) x : N.of_nat (length (l ++ [x])) = (N.of_nat (length l) + 1)%N.
Proof. rewrite app_length; cbn [length]; lia. Qed.

Section Tables.
  Context {K : Type} (keq : forall a b : K, {a = b} + {a <> b}).
  Notation peq := (pair_eq keq).

  Lemma ix_of_tag n k ks : ix_of peq (n, k) (map (pair n) ks) = ix_of keq k ks.
  Proof.
    induction ks as [|j ks IH]; cbn [map ix_of]; [reflexivity|]. rewrite IH.
    destruct (peq (n, k) (n, j)), (keq k j); congruence.
  Qed.

  (** ** Variables *)
  Fixpoint vflat (fs : @vframes K) : list (N * K) :=
    match fs with [] => [] | (n, ks) :: fs' => vflat fs' ++ map (pair n) ks end.
  Fixpoint vscopes (fs : @vframes K) : list var_scope :=
    match fs with
    | [] => []
    | (n, ks) :: fs' => mk_vscope n (N.of_nat (length ks)) (length (vflat fs')) :: vscopes fs'
    end.
  Definition vabs fs := mk_vt (vflat fs) (vscopes fs).
  Definition vinv (fs : @vframes K) : Prop :=
    NoDup (map fst fs) /\ Forall (fun f => (N.of_nat (length (snd f)) < 65536)%N) fs.

  Lemma vflat_owner fs n k : In (n, k) (vflat fs) -> In n (map fst fs).
  Proof.
    induction fs as [|[m ks] fs IH]; cbn; [tauto|]. intros H. apply in_app_or in H as [H|H]; [tauto|].
    apply in_map_iff in H as (j & [= -> ->] & _). tauto.
  Qed.

  Lemma v_ix n ks fs k : ~ In n (map fst fs) ->
    ix_of peq (n, k) (vflat fs ++ map (pair n) ks) = option_map (Nat.add (length (vflat fs))) (ix_of keq k ks).
  Proof.
    intros Hn. rewrite ix_of_app_r; [rewrite ix_of_tag; reflexivity|].
    intros H. apply Hn. eapply vflat_owner; eassumption.
  Qed.

  Lemma v_sim fs o : vinv fs ->
    (~ v_ok_op fs o) \/ (v_misuse fs o /\ vt_step keq (vabs fs) o = None) \/
    (v_ok_op fs o /\ exists fs' r, v_answers fs o fs' r /\ vt_step keq (vabs fs) o = Some (vabs fs', r) /\ vinv fs').
  Proof.
    intros [Hnd Hsz].
    destruct o as [n| |k|n i|k|].
    - destruct (in_dec N.eq_dec n (map fst fs)) as [Hin|Hin]; [left; cbn; tauto|].
      right; right. split; [exact Hin|]. exists ((n, []) :: fs), VUnit.
      split; [constructor|]. split.
      + unfold vt_step, vt_enter, vabs; cbn. rewrite app_nil_r. reflexivity.
      + split; [cbn; constructor; assumption|]. constructor; [cbn; lia|assumption].
    - destruct fs as [|[n ks] fs]; right; [left|right].
      + split; [split; auto|reflexivity].
      + split; [exact I|]. exists fs, VUnit. split; [constructor|]. split.
        * unfold vt_step, vt_exit, vabs; cbn [vt_scopes vscopes vs_stack vflat vt_vars option_map].
          rewrite firstn_app, Nat.sub_diag, firstn_all. cbn [firstn]. rewrite app_nil_r. reflexivity.
        * inversion Hnd; inversion Hsz; subst. split; assumption.
    - right; right. split; [exact I|]. destruct fs as [|[n ks] fs].
      + exists [], (VErrRoot k). split; [constructor|]. split; [reflexivity|split; assumption].
      + assert (Hn : ~ In n (map fst fs)) by (inversion Hnd; assumption).
        unfold vt_step, vt_resolve, vabs; cbn [vt_scopes vscopes vs_node vflat vt_vars vs_stack].
        rewrite v_ix by assumption.
        destruct (ix_of keq k ks) as [i|] eqn:E; cbn [option_map].
        * apply ix_of_some in E as [Hp Hlt]. exists ((n, ks) :: fs), (VId n (N.of_nat i)).
          split; [constructor; assumption|]. split; [|split; assumption].
          rewrite (proj2 (Nat.ltb_ge (length (vflat fs) + i) (length (vflat fs)))) by lia. cbn [option_map].
          replace (length (vflat fs) + i - length (vflat fs)) with i by lia.
          inversion Hsz as [|? ? Hs _]; subst; cbn in Hs. rewrite u16_small by lia. reflexivity.
        * apply ix_of_none in E. exists ((n, ks) :: fs), (VErrWithin n k).
          split; [constructor; assumption|]. split; [reflexivity|split; assumption].
    - right; right. split; [exact I|]. destruct fs as [|[m ks] fs].
      + exists [], (VBool false). split; [constructor|]. split; [reflexivity|split; assumption].
      + eexists ((m, ks) :: fs), (VBool _). split; [|split; [reflexivity|split; assumption]].
        constructor. cbn. rewrite andb_true_iff, N.eqb_eq, N.ltb_lt. split; intros [? ?]; auto.
    - destruct fs as [|[n ks] fs]; [right; left|].
      + split; [split; [reflexivity|right; eexists; reflexivity]|reflexivity].
      + destruct (N.lt_decidable (N.of_nat (length ks)) 65535) as [Hlt|Hge]; [|left; cbn; assumption].
        right; right. split; [exact Hlt|].
        assert (Hn : ~ In n (map fst fs)) by (inversion Hnd; assumption).
        unfold vt_step, vt_insert, ix_insert, vabs; cbn [vt_scopes vscopes vs_node vflat vt_vars vs_stack vs_count].
        rewrite v_ix by assumption.
        destruct (ix_of keq k ks) as [i|] eqn:E; cbn [option_map].
        * assert (In k ks).
          { destruct (in_dec keq k ks) as [H|H]; [assumption|]. apply ix_of_none with (eqd := keq) in H. congruence. }
          exists ((n, ks) :: fs), (VErrDup n k). split; [constructor; assumption|].
          split; [reflexivity|split; assumption].
        * apply ix_of_none in E. exists ((n, ks ++ [k]) :: fs), (VId n (N.of_nat (length ks))).
          split; [constructor; assumption|]. split.
          -- unfold vabs; cbn [vflat vscopes]. rewrite map_app, app_assoc, of_nat_len_snoc.
             rewrite u16_small by lia. reflexivity.
          -- inversion Hsz as [|? ? Hs Hs']; subst. split; [assumption|].
             constructor; [|assumption]. cbn [snd]. rewrite of_nat_len_snoc. lia.
    - right; right. split; [exact I|]. exists [], VUnit. split; [constructor|]. split; [reflexivity|].
      split; constructor.
  Qed.

  Lemma var_follows ops : follows v_ok_op v_answers v_misuse [] ops (trace (vt_step keq) vt_new ops).
  Proof.
    change vt_new with (vabs []). apply sim_follows with (Inv := vinv); [apply v_sim|split; constructor].
  Qed.

  (** ** Links *)
  Fixpoint lflat (fs : @lframes K) : list (N * K) :=
    match fs with [] => [] | (r, ks, _) :: fs' => lflat fs' ++ map (pair r) ks end.
  Fixpoint lscopes (fs : @lframes K) : list link_scope :=
    match fs with
    | [] => []
    | (r, ks, p) :: fs' => mk_lscope (length (lflat fs')) (N.of_nat (length ks)) p r :: lscopes fs'
    end.
  Definition labs fs := mk_lt (lflat fs) (lscopes fs).
  Definition lowners (fs : @lframes K) := map (fun f => fst (fst f)) fs.
  Definition linv (fs : @lframes K) : Prop :=
    NoDup (lowners fs) /\
    Forall (fun f => (N.of_nat (length (snd (fst f))) <= snd f)%N /\ (snd f < 4294967296)%N) fs.

  Lemma lflat_owner fs n k : In (n, k) (lflat fs) -> In n (lowners fs).
  Proof.
    induction fs as [|[[m ks] p] fs IH]; cbn; [tauto|]. intros H. apply in_app_or in H as [H|H]; [tauto|].
    apply in_map_iff in H as (j & [= -> ->] & _). tauto.
  Qed.

  Lemma l_ix n ks fs k : ~ In n (lowners fs) ->
    ix_of peq (n, k) (lflat fs ++ map (pair n) ks) = option_map (Nat.add (length (lflat fs))) (ix_of keq k ks).
  Proof.
    intros Hn. rewrite ix_of_app_r; [rewrite ix_of_tag; reflexivity|].
    intros H. apply Hn. eapply lflat_owner; eassumption.
  Qed.

  Lemma l_sim fs o : linv fs ->
    (~ l_ok_op fs o) \/ (l_misuse fs o /\ lt_step keq (labs fs) o = None) \/
    (l_ok_op fs o /\ exists fs' r, l_answers fs o fs' r /\ lt_step keq (labs fs) o = Some (labs fs', r) /\ linv fs').
  Proof.
    intros [Hnd Hsz].
    destruct o as [n| |k|].
    - destruct (in_dec N.eq_dec n (lowners fs)) as [Hin|Hin]; [left; cbn; tauto|].
      right; right. split; [exact Hin|]. exists ((n, [], 0%N) :: fs), LUnit.
      split; [constructor|]. split.
      + unfold lt_step, lt_enter, labs; cbn. rewrite app_nil_r. reflexivity.
      + split; [cbn; constructor; assumption|]. constructor; [cbn; lia|assumption].
    - destruct fs as [|[[n ks] p] fs]; right; [left|right].
      + split; [split; auto|reflexivity].
      + split; [exact I|]. exists fs, (LCounts (N.of_nat (length ks)) p). split; [constructor|]. split.
        * unfold lt_step, lt_exit, labs; cbn [lt_scopes lscopes ls_stack lflat lt_links ls_links ls_ports].
          rewrite firstn_app, Nat.sub_diag, firstn_all. cbn [firstn]. rewrite app_nil_r. reflexivity.
        * inversion Hnd; inversion Hsz; subst. split; assumption.
    - destruct fs as [|[[n ks] p] fs]; [right; left|].
      + split; [split; [reflexivity|right; eexists; reflexivity]|reflexivity].
      + destruct (N.lt_decidable p 4294967295) as [Hlt|Hge]; [|left; cbn; assumption].
        right; right. split; [exact Hlt|].
        assert (Hn : ~ In n (lowners fs)) by (inversion Hnd; assumption).
        inversion Hsz as [|? ? [Hs1 Hs2] Hs']; subst. cbn [fst snd] in *.
        unfold lt_step, lt_use, ix_insert, labs; cbn [lt_scopes lscopes ls_region lflat lt_links ls_stack ls_links ls_ports].
        rewrite l_ix by assumption.
        destruct (ix_of keq k ks) as [i|] eqn:E; cbn [option_map].
        * apply ix_of_some in E as [Hp Hi]. exists ((n, ks, (p + 1)%N) :: fs), (LIndex i).
          split; [constructor; assumption|]. split.
          -- rewrite (proj2 (Nat.ltb_ge (length (lflat fs) + i) (length (lflat fs)))) by lia.
             rewrite u32_small by lia.
             replace (length (lflat fs) + i - length (lflat fs)) with i by lia. reflexivity.
          -- split; [assumption|]. constructor; [cbn [fst snd]; lia|assumption].
        * apply ix_of_none in E. exists ((n, ks ++ [k], (p + 1)%N) :: fs), (LIndex (length ks)).
          split; [constructor; assumption|]. split.
          -- rewrite app_length, map_length.
             rewrite (proj2 (Nat.ltb_ge (length (lflat fs) + length ks) (length (lflat fs)))) by lia.
             unfold labs; cbn [lflat lscopes]. rewrite map_app, app_assoc, of_nat_len_snoc.
             rewrite !u32_small by lia.
             replace (length (lflat fs) + length ks - length (lflat fs)) with (length ks) by lia. reflexivity.
          -- split; [assumption|]. constructor; [|assumption]. cbn [fst snd]. rewrite of_nat_len_snoc. lia.
    - right; right. split; [exact I|]. exists [], LUnit. split; [constructor|]. split; [reflexivity|].
      split; constructor.
  Qed.

  Lemma link_follows ops : follows l_ok_op l_answers l_misuse [] ops (trace (lt_step keq) lt_new ops).
  Proof.
    change lt_new with (labs []). apply sim_follows with (Inv := linv); [apply l_sim|split; constructor].
  Qed.
End Tables.
