From Coq Require Import String List Bool NArith Arith Lia Permutation.
From Verif Require Import ScopeModel ScopeSpec ScopeProofs ScopeSymProofs TextModel TextSpec ResolveModel ResolveSpec.
Import ListNotations.
Open Scope nat_scope.
Open Scope list_scope.

(** ** Lists *)
Definition prefix {A} (a b : list A) : Prop := exists l, b = a ++ l.
Lemma prefix_refl {A} (a : list A) : prefix a a.
Proof. exists []. rewrite app_nil_r. reflexivity. Qed.
Lemma prefix_trans {A} (a b c : list A) : prefix a b -> prefix b c -> prefix a c.
Proof. intros [l ->] [k ->]. exists (l ++ k). rewrite app_assoc. reflexivity. Qed.
Lemma prefix_app {A} (a b : list A) : prefix a (a ++ b).
Proof. exists b. reflexivity. Qed.
Lemma prefix_nth {A} (a b : list A) i x : prefix a b -> nth_error a i = Some x -> nth_error b i = Some x.
Proof. intros [l ->] H. rewrite nth_error_app1; [exact H|]. apply nth_error_Some. congruence. Qed.

Lemma list_set_some {A} i (x : A) l y : nth_error l i = Some y -> exists l', list_set i x l = Some l' /\ length l' = length l /\
  nth_error l' i = Some x /\ (forall j, j <> i -> nth_error l' j = nth_error l j).
Proof.
  revert i. induction l as [|a l IH]; intros [|i] H; try discriminate H.
  - exists (x :: l). cbn. repeat split; try reflexivity. intros [|j] Hj; [lia|reflexivity].
  - destruct (IH i H) as (l' & E & L & N1 & N2). exists (a :: l'). cbn. rewrite E. cbn. repeat split; [lia|exact N1|]. intros [|j] Hj; [reflexivity|]. apply N2. lia.
Qed.
Lemma lookup_lt {A} (l : list A) i x : lookup l i = Some x -> (i < N.of_nat (length l))%N.
Proof. unfold lookup. intros H. assert (N.to_nat i < length l) by (apply nth_error_Some; congruence). lia. Qed.
Lemma lookup_some {A} (l : list A) i : (i < N.of_nat (length l))%N -> exists x, lookup l i = Some x.
Proof. unfold lookup. intros H. destruct (nth_error l (N.to_nat i)) as [x|] eqn:E; [exists x; reflexivity|]. apply nth_error_None in E. lia. Qed.
Lemma lookup_app_l {A} (l k : list A) i x : lookup l i = Some x -> lookup (l ++ k) i = Some x.
Proof. unfold lookup. intros H. rewrite nth_error_app1; [exact H|]. apply nth_error_Some. congruence. Qed.
Lemma lookup_old {A} (l k : list A) i : (i < N.of_nat (length l))%N -> lookup (l ++ k) i = lookup l i.
Proof. unfold lookup. intros H. apply nth_error_app1. lia. Qed.
Lemma lookup_end {A} (l : list A) x : lookup (l ++ [x]) (N.of_nat (length l)) = Some x.
Proof. unfold lookup. rewrite Nnat.Nat2N.id, nth_error_app2 by lia. rewrite Nat.sub_diag. reflexivity. Qed.

Lemma nodup_app_l {A} (l k : list A) : NoDup (l ++ k) -> NoDup l.
Proof. induction l as [|a l IH]; [constructor|]. cbn. intros H. inversion H; subst. constructor; [|auto]. intros K. apply H2. apply in_or_app. tauto. Qed.

(** ** Names *)
Notation sdec := str_eq_dec.
Lemma distinct_after_app seen a b : distinct_after seen (a ++ b) = distinct_after (distinct_after seen a) b.
Proof. revert seen. induction a as [|x a IH]; intros seen; cbn; [reflexivity|]. apply IH. Qed.
Lemma distinct_prefix seen a : prefix seen (distinct_after seen a).
Proof.
  revert seen. induction a as [|x a IH]; intros seen; cbn; [apply prefix_refl|].
  eapply prefix_trans; [|apply IH]. destruct (in_dec _ _ _); [apply prefix_refl|apply prefix_app].
Qed.
Lemma distinct_in seen a n : In n (distinct_after seen a) <-> In n seen \/ In n a.
Proof.
  revert seen. induction a as [|x a IH]; intros seen; cbn [distinct_after In]; [tauto|]. rewrite IH. destruct (in_dec (list_eq_dec N.eq_dec) x seen) as [H|H].
  - split; [tauto|]. intros [K|[<-|K]]; tauto.
  - rewrite in_app_iff. cbn [In]. tauto.
Qed.
Lemma distinct_nodup seen a : NoDup seen -> NoDup (distinct_after seen a).
Proof.
  revert seen. induction a as [|x a IH]; intros seen H; cbn; [exact H|]. apply IH. destruct (in_dec (list_eq_dec N.eq_dec) x seen) as [K|K]; [exact H|].
  apply Permutation_NoDup with (l := x :: seen); [|constructor; assumption]. apply Permutation_cons_append.
Qed.
Lemma at_pos_position n l i : at_pos n l i -> position n l = i.
Proof.
  revert i. induction l as [|a l IH]; intros i [H1 H2]; [destruct i; discriminate H1|]. cbn [position]. destruct (list_eq_dec N.eq_dec n a) as [->|Hne].
  - destruct i as [|i]; [reflexivity|]. exfalso. apply (H2 0); [lia|reflexivity].
  - destruct i as [|i]; [cbn in H1; congruence|]. f_equal. apply IH. split; [exact H1|]. intros j Hj. apply (H2 (S j)). lia.
Qed.
Lemma at_pos_prefix n (l k : list str) i : at_pos n l i -> prefix l k -> at_pos n k i.
Proof.
  intros [H1 H2] [z ->]. assert (i < length l) by (apply nth_error_Some; congruence). split; [rewrite nth_error_app1 by lia; exact H1|].
  intros j Hj. rewrite nth_error_app1 by lia. apply H2. exact Hj.
Qed.
Lemma position_at n l : In n l -> at_pos n l (position n l).
Proof.
  induction l as [|a l IH]; [intros []|]. cbn [position]. destruct (list_eq_dec N.eq_dec n a) as [->|Hne].
  - intros _. split; [reflexivity|]. intros j Hj. lia.
  - intros [->|H]; [congruence|]. destruct (IH H) as [H1 H2]. split; [exact H1|]. intros [|j] Hj; cbn; [congruence|]. apply H2. lia.
Qed.

Section Proofs.
  Context {F : Type}.
  Variable feq : F -> F -> bool.
  Variable canon : F -> F.
  Hypothesis feq_canon : forall a b, feq a b = true <-> canon a = canon b.
  Variable drain : list (str * N) -> list (str * N).
  Hypothesis drain_perm : forall l, Permutation (drain l) l.

  Notation term := (@term F).
  Notation region := (@region F).
  Notation node := (@node F).
  Notation st := (@st F).
  Notation tmodule := (@tmodule F).
  Notation comp := (@comp F).
  Notation vframes := (@vframes str).
  Notation lframes := (@lframes str).
  Notation sframes := (@sframes str).

  (** ** Scopes *)
  Definition vars (vf : vframes) : list str := match vf with (_, ks) :: _ => ks | [] => [] end.
  Definition bound (sf : sframes) : list str := flat_map (fun f => map fst (snd f)) sf.
  Definition addv (vf : vframes) (nv : list str) : vframes := match vf with (n, ks) :: vf => (n, ks ++ nv) :: vf | [] => [] end.
  Definition usel (lf : lframes) (nl : list str) : lframes :=
    match lf with (r, ks, p) :: lf => (r, distinct_after ks nl, (p + N.of_nat (length nl))%N) :: lf | [] => [] end.
  Definition topl (lf : lframes) : list str := match lf with (_, ks, _) :: _ => ks | [] => [] end.
  Definition roomv (vf : vframes) (nv : list str) : Prop :=
    nv = [] \/ exists n ks vf', vf = (n, ks) :: vf' /\ (N.of_nat (length (ks ++ nv)) < 65536)%N.
  Definition rooml (lf : lframes) (nl : list str) : Prop :=
    nl = [] \/ exists r ks p lf', lf = (r, ks, p) :: lf' /\ (p + N.of_nat (length nl) < 4294967296)%N.

  Lemma addv_nil vf : addv vf [] = vf.
  Proof. destruct vf as [|[n ks] vf]; cbn; [reflexivity|]. rewrite app_nil_r. reflexivity. Qed.
  Lemma addv_app vf a b : addv (addv vf a) b = addv vf (a ++ b).
  Proof. destruct vf as [|[n ks] vf]; cbn; [reflexivity|]. rewrite app_assoc. reflexivity. Qed.
  Lemma usel_nil lf : usel lf [] = lf.
  Proof. destruct lf as [|[[r ks] p] lf]; cbn; [reflexivity|]. rewrite N.add_0_r. reflexivity. Qed.
  Lemma usel_app lf a b : usel (usel lf a) b = usel lf (a ++ b).
  Proof. destruct lf as [|[[r ks] p] lf]; cbn; [reflexivity|]. rewrite distinct_after_app, app_length, Nnat.Nat2N.inj_add, N.add_assoc. reflexivity. Qed.
  Lemma topl_prefix lf nl : prefix (topl lf) (topl (usel lf nl)).
  Proof. destruct lf as [|[[r ks] p] lf]; cbn; [apply prefix_refl|apply distinct_prefix]. Qed.
  Lemma roomv_app vf a b : roomv vf (a ++ b) -> roomv vf a /\ roomv (addv vf a) b.
  Proof.
    intros [H|(n & ks & vf' & -> & H)].
    - apply app_eq_nil in H as [-> ->]. split; left; reflexivity.
    - rewrite !app_length in H. split; right; cbn; eexists _, _, _; (split; [reflexivity|]); rewrite !app_length; lia.
  Qed.
  Lemma rooml_app lf a b : rooml lf (a ++ b) -> rooml lf a /\ rooml (usel lf a) b.
  Proof.
    intros [H|(r & ks & p & lf' & -> & H)].
    - apply app_eq_nil in H as [-> ->]. split; left; reflexivity.
    - rewrite app_length in H. split; right; cbn; eexists _, _, _, _; (split; [reflexivity|]); lia.
  Qed.

  (** ** States *)
  Record inv (vf : vframes) (lf : lframes) (sf : sframes) (s : st) : Prop := Inv {
    i_v : c_vars s = vabs vf; i_vi : vinv vf; i_vo : Forall (fun f => (fst f < N.of_nat (length (c_nodes s)))%N) vf;
    i_l : c_links s = labs lf; i_li : linv lf; i_lo : Forall (fun f => (fst (fst f) < N.of_nat (length (c_regions s)))%N) lf;
    i_s : c_symbols s = sabs sdec sf; i_si : sinv sf; i_so : Forall (fun f => (fst f < N.of_nat (length (c_regions s)))%N) sf;
    i_sd : forall k n, declared sf k n -> (n < N.of_nat (length (c_nodes s)))%N;
    i_im : NoDup (map fst (c_imports s));
    i_in : Forall (fun e => lookup (c_nodes s) (snd e) = Some (TNode (Import (fst e)) [] [] [] [] None)) (c_imports s);
    i_c : Forall (fun e => lookup (c_terms s) (snd e) = Some (fst e)) (c_cache s) }.

  (** The tables only grow, except for the nodes in [W]. *)
  Record grows (W : list N) (s s' : st) : Prop := Grows {
    g_terms : prefix (c_terms s) (c_terms s');
    g_nodes : forall i, (i < N.of_nat (length (c_nodes s)))%N -> ~ In i W -> lookup (c_nodes s') i = lookup (c_nodes s) i;
    g_nlen : length (c_nodes s) <= length (c_nodes s');
    g_regions : forall i, (i < N.of_nat (length (c_regions s)))%N -> lookup (c_regions s') i = lookup (c_regions s) i;
    g_rlen : length (c_regions s) <= length (c_regions s');
    g_imports : prefix (c_imports s) (c_imports s') }.
  (** A table that has what was added to it. *)
  Record agree (M : tmodule) (W : list N) (s s' : st) : Prop := Agree {
    a_terms : prefix (c_terms s') (tm_terms M);
    a_nodes : forall i, (N.of_nat (length (c_nodes s)) <= i < N.of_nat (length (c_nodes s')))%N \/ In i W -> lookup (tm_nodes M) i = lookup (c_nodes s') i;
    a_regions : forall i, (N.of_nat (length (c_regions s)) <= i < N.of_nat (length (c_regions s')))%N -> lookup (tm_regions M) i = lookup (c_regions s') i }.
  (** A table in which the names in scope are right. *)
  Record good (M : tmodule) (vf : vframes) (sf : sframes) (im : list (str * N)) : Prop := Good_ {
    d_vars : forall n ks vf', vf = (n, ks) :: vf' -> exists x y, lookup (tm_nodes M) n = Some x /\ op_symbol (tn_op x) = Some y /\ prefix ks (map fst (s_params y));
    d_syms : forall k n, binds sf k n -> view_symbol_name M n = Some k;
    d_imports : forall k n, In (k, n) im -> view_symbol_name M n = Some k }.

  Lemma grows_refl s : grows [] s s.
  Proof. constructor; try apply prefix_refl; try lia; reflexivity. Qed.
  Lemma grows_trans W1 W2 s1 s2 s3 : grows W1 s1 s2 -> grows W2 s2 s3 -> grows (W1 ++ W2) s1 s3.
  Proof.
    intros G1 G2. constructor.
    - eapply prefix_trans; [apply G1|apply G2].
    - intros i Hi Hn. rewrite in_app_iff in Hn. rewrite (g_nodes _ _ _ G2), (g_nodes _ _ _ G1); try tauto. assert (H := g_nlen _ _ _ G1). lia.
    - assert (H := g_nlen _ _ _ G1). assert (K := g_nlen _ _ _ G2). lia.
    - intros i Hi. rewrite (g_regions _ _ _ G2), (g_regions _ _ _ G1); try tauto. assert (H := g_rlen _ _ _ G1). lia.
    - assert (H := g_rlen _ _ _ G1). assert (K := g_rlen _ _ _ G2). lia.
    - eapply prefix_trans; [apply G1|apply G2].
  Qed.
  Lemma good_less M vf nv sf im im' : good M (addv vf nv) sf im' -> prefix im im' -> good M vf sf im.
  Proof.
    intros [D1 D2 D3] [l ->]. constructor; [|exact D2|].
    - intros n ks vf' ->. destruct (D1 n (ks ++ nv) vf' eq_refl) as (x & y & H1 & H2 & H3). exists x, y. split; [exact H1|]. split; [exact H2|].
      eapply prefix_trans; [apply prefix_app|exact H3].
    - intros k n H. apply D3. apply in_or_app. left. exact H.
  Qed.
  Lemma agree_split M W1 W2 s1 s2 s3 :
    agree M (W1 ++ W2) s1 s3 -> grows W1 s1 s2 -> grows W2 s2 s3 -> (forall w, In w W2 -> ~ In w W1 /\ (w < N.of_nat (length (c_nodes s1)))%N) ->
    (forall w, In w W1 -> (w < N.of_nat (length (c_nodes s1)))%N) -> agree M W1 s1 s2 /\ agree M W2 s2 s3.
  Proof.
    intros [A1 A2 A3] G1 G2 HW2 HW1. assert (L1 := g_nlen _ _ _ G1). assert (L2 := g_nlen _ _ _ G2). assert (R1 := g_rlen _ _ _ G1). assert (R2 := g_rlen _ _ _ G2). split; constructor.
    - eapply prefix_trans; [apply (g_terms _ _ _ G2)|exact A1].
    - intros i Hi. assert (Hlt : (i < N.of_nat (length (c_nodes s2)))%N) by (destruct Hi as [Hi|Hi]; [lia|specialize (HW1 i Hi); lia]).
      assert (Hn : ~ In i W2) by (intros K; destruct (HW2 i K) as [K1 K2]; destruct Hi as [Hi|Hi]; [lia|tauto]).
      rewrite A2; [apply (g_nodes _ _ _ G2); assumption|]. destruct Hi as [Hi|Hi]; [left; lia|right; apply in_or_app; tauto].
    - intros i Hi. rewrite A3 by lia. apply (g_regions _ _ _ G2). lia.
    - exact A1.
    - intros i [Hi|Hi]; apply A2; [left; lia|right; apply in_or_app; tauto].
    - intros i Hi. apply A3. lia.
  Qed.

  Definition names (s : st) : list str := map fst (c_imports s).

  (** ** Computations *)
  (** In the scopes [vf], [lf], [sf] the computation succeeds if [ok]; it adds variables [nv] and links [nl], changes the
      symbols to [sf'], imports the names [fr]; [see0] and [see] are about any table that contains what it made. *)
  Definition triple {A} (c : comp A) (vf : vframes) (sf sf' : sframes) (W : list N) (ok : Prop) (nv nl fr : list str)
             (see0 : tmodule -> A -> Prop) (see : tmodule -> list str -> A -> Prop) : Prop :=
    forall lf s, inv vf lf sf s -> rooml lf nl -> roomv vf nv -> (forall w, In w W -> lookup (c_nodes s) w = Some new_node) -> NoDup W ->
    match c s with
    | Ok (a, s') =>
      ok /\ inv (addv vf nv) (usel lf nl) sf' s' /\ grows W s s' /\ (forall n, In n (names s') <-> In n (names s) \/ In n fr) /\
      (forall M, agree M W s s' -> see0 M a) /\
      (forall M ns, agree M W s s' -> prefix (topl (usel lf nl)) ns -> good M (addv vf nv) sf (c_imports s') -> see M ns a)
    | Err _ => ~ ok
    | Crash => False
    end.
  Definition yes {A} : tmodule -> A -> Prop := fun _ _ => True.

  Lemma triple_ret {A} (a : A) vf sf (see : tmodule -> list str -> A -> Prop) : (forall M ns, see M ns a) -> triple (ret a) vf sf sf [] True [] [] [] yes see.
  Proof.
    intros H lf s Hi _ _ _ _. unfold ret. split; [exact I|]. rewrite addv_nil, usel_nil. split; [exact Hi|]. split; [apply grows_refl|].
    split; [cbn; tauto|]. split; [intros; exact I|]. intros. apply H.
  Qed.
  Lemma triple_bind {A B} (c : comp A) (k : A -> comp B) vf sf sf' W1 W2 ok1 ok2 nv1 nv2 nl1 nl2 fr1 fr2 see01 (see02 : tmodule -> B -> Prop) see1 (see2 : tmodule -> list str -> B -> Prop) :
    triple c vf sf sf W1 ok1 nv1 nl1 fr1 see01 see1 ->
    (forall a, triple (k a) (addv vf nv1) sf sf' W2 ok2 nv2 nl2 fr2 (fun M b => see01 M a -> see02 M b) (fun M ns b => see1 M ns a -> see2 M ns b)) ->
    triple (bind c k) vf sf sf' (W1 ++ W2) (ok1 /\ ok2) (nv1 ++ nv2) (nl1 ++ nl2) (fr1 ++ fr2) see02 see2.
  Proof.
    intros T1 T2 lf s Hi Hl Hv HW HND. apply rooml_app in Hl as [Hl1 Hl2]. apply roomv_app in Hv as [Hv1 Hv2].
    specialize (T1 lf s Hi Hl1 Hv1 (fun w Hw => HW w (in_or_app _ _ _ (or_introl Hw))) (nodup_app_l _ _ HND)). unfold bind.
    destruct (c s) as [[a s1]|e|]; [|tauto|exact T1]. destruct T1 as (K1 & I1 & G1 & N1 & S01 & S1).
    assert (Hdis : forall w, In w W2 -> ~ In w W1).
    { clear - HND. induction W1 as [|x W1 IH]; [cbn; tauto|]. cbn in *. inversion HND; subst. intros w Hw [<-|K]; [|exact (IH ltac:(assumption) w Hw K)]. apply H1. apply in_or_app. tauto. }
    assert (HW1 : forall w, In w W1 -> (w < N.of_nat (length (c_nodes s)))%N) by (intros w Hw; eapply lookup_lt; apply HW; apply in_or_app; tauto).
    assert (HW2 : forall w, In w W2 -> ~ In w W1 /\ (w < N.of_nat (length (c_nodes s)))%N) by (intros w Hw; split; [apply Hdis; exact Hw|]; eapply lookup_lt; apply HW; apply in_or_app; tauto).
    specialize (T2 a (usel lf nl1) s1 I1 Hl2 Hv2). cbn beta in T2.
    assert (HW2' : forall w, In w W2 -> lookup (c_nodes s1) w = Some new_node).
    { intros w Hw. rewrite (g_nodes _ _ _ G1); [apply HW; apply in_or_app; tauto|apply HW2; exact Hw|apply HW2; exact Hw]. }
    specialize (T2 HW2' (nodup_app_r _ _ HND)). destruct (k a s1) as [[b s2]|e|]; [|tauto|exact T2]. destruct T2 as (K2 & I2 & G2 & N2 & S02 & S2).
    rewrite usel_app, addv_app in *. split; [tauto|]. split; [exact I2|]. split; [eapply grows_trans; eassumption|]. split; [intros n; rewrite N2, N1, in_app_iff; tauto|]. split.
    - intros M HM. destruct (agree_split _ _ _ _ _ _ HM G1 G2 HW2 HW1) as [M1 M2]. apply S02; [exact M2|]. apply S01. exact M1.
    - intros M ns HM Hp HG. destruct (agree_split _ _ _ _ _ _ HM G1 G2 HW2 HW1) as [M1 M2]. apply S2; [exact M2|exact Hp|exact HG|]. apply S1; [exact M1| |].
      + eapply prefix_trans; [|exact Hp]. rewrite <- usel_app. apply topl_prefix.
      + rewrite <- addv_app in HG. eapply good_less; [exact HG|apply (g_imports _ _ _ G2)].
  Qed.
  Lemma triple_conv {A} (c : comp A) vf sf sf' W ok ok' nv nl fr fr' see0 (see0' : tmodule -> A -> Prop) see (see' : tmodule -> list str -> A -> Prop) :
    triple c vf sf sf' W ok nv nl fr see0 see -> (ok <-> ok') -> (forall n, In n fr <-> In n fr') -> (forall M a, see0 M a -> see0' M a) -> (forall M ns a, see M ns a -> see' M ns a) ->
    triple c vf sf sf' W ok' nv nl fr' see0' see'.
  Proof.
    intros T H1 H2 H3 H4 lf s Hi Hl Hv HW HND. specialize (T lf s Hi Hl Hv HW HND). destruct (c s) as [[a s1]|e|]; [|tauto|exact T].
    destruct T as (K1 & I1 & G1 & N1 & S01 & S1). split; [tauto|]. split; [exact I1|]. split; [exact G1|]. split; [intros n; rewrite N1, H2; tauto|]. split; intros; [apply H3, S01; assumption|apply H4, S1; assumption].
  Qed.
  (** Terms: no variables, no links. *)
  Definition triple0 {A} (c : comp A) (vf : vframes) (sf : sframes) (ok : Prop) (nl fr : list str) (see : tmodule -> list str -> A -> Prop) : Prop :=
    triple c vf sf sf [] ok [] nl fr yes see.
  Lemma bind0 {A B} (c : comp A) (k : A -> comp B) vf sf ok1 ok2 nl1 nl2 fr1 fr2 see1 (see2 : tmodule -> list str -> B -> Prop) :
    triple0 c vf sf ok1 nl1 fr1 see1 -> (forall a, triple0 (k a) vf sf ok2 nl2 fr2 (fun M ns b => see1 M ns a -> see2 M ns b)) ->
    triple0 (bind c k) vf sf (ok1 /\ ok2) (nl1 ++ nl2) (fr1 ++ fr2) see2.
  Proof.
    intros T1 T2. unfold triple0 in *. refine (triple_bind c k vf sf sf [] [] ok1 ok2 [] [] nl1 nl2 fr1 fr2 yes yes see1 see2 T1 _).
    intros a. rewrite addv_nil. eapply triple_conv; [apply T2|tauto|tauto|intros; exact I|]. intros M ns b H. exact H.
  Qed.
  Lemma ret0 {A} (a : A) vf sf (see : tmodule -> list str -> A -> Prop) : (forall M ns, see M ns a) -> triple0 (ret a) vf sf True [] [] see.
  Proof. apply triple_ret. Qed.
  Lemma conv0 {A} (c : comp A) vf sf ok ok' nl nl' fr fr' see (see' : tmodule -> list str -> A -> Prop) :
    triple0 c vf sf ok nl fr see -> (ok <-> ok') -> nl = nl' -> (forall n, In n fr <-> In n fr') -> (forall M ns a, see M ns a -> see' M ns a) -> triple0 c vf sf ok' nl' fr' see'.
  Proof. intros T H1 <- H2 H3. eapply triple_conv; [exact T|exact H1|exact H2|tauto|exact H3]. Qed.
  Lemma each0 {A B} (f : A -> comp B) l vf sf (ok : A -> Prop) nl fr (see : A -> tmodule -> list str -> B -> Prop) :
    Forall (fun a => triple0 (f a) vf sf (ok a) (nl a) (fr a) (see a)) l ->
    triple0 (each f l) vf sf (all ok l) (flat_map nl l) (flat_map fr l) (fun M ns bs => Forall2 (fun a b => see a M ns b) l bs).
  Proof.
    induction 1 as [|a l Ha Hl IH]; [apply ret0; constructor|]. cbn [each all flat_map]. eapply bind0; [exact Ha|]. intros b. cbv beta.
    eapply conv0; [refine (bind0 (each f l) (fun bs => ret (b :: bs)) vf sf (all ok l) True (flat_map nl l) [] (flat_map fr l) []
      (fun M ns bs => Forall2 (fun a b => see a M ns b) l bs) (fun M ns bs => see a M ns b -> Forall2 (fun a b => see a M ns b) (a :: l) bs) IH _)|tauto|apply app_nil_r|intros n; rewrite app_nil_r; tauto|].
    - intros bs. apply ret0. intros M ns H1 H2. constructor; assumption.
    - intros M ns x H. exact H.
  Qed.

  (** ** Single steps *)
  Lemma use_link n r ks p lf : linv ((r, ks, p) :: lf) -> (p + 1 < 4294967296)%N ->
    exists i, lt_use sdec n (labs ((r, ks, p) :: lf)) = Some (labs ((r, distinct_after ks [n], (p + 1)%N) :: lf), LIndex i) /\
              at_pos n (distinct_after ks [n]) i /\ linv ((r, distinct_after ks [n], (p + 1)%N) :: lf).
  Proof.
    intros HI Hp. destruct (l_sim sdec _ (LUse n) HI) as [H|[[[H _] _]|[_ (fs' & a & Ha & E & HI')]]]; [exfalso; apply H; cbn; lia|discriminate H|].
    cbn [lt_step] in E. inversion Ha; subst; cbn [distinct_after].
    - destruct (in_dec (list_eq_dec N.eq_dec) n ks) as [_|K]; [exists i; auto|]. exfalso. apply K. eapply nth_error_In. match goal with H : at_pos _ _ _ |- _ => apply H end.
    - destruct (in_dec (list_eq_dec N.eq_dec) n ks) as [K|_]; [tauto|]. exists (length ks). split; [exact E|]. split; [|exact HI']. split.
      + rewrite nth_error_app2, Nat.sub_diag by lia. reflexivity.
      + intros j Hj. rewrite nth_error_app1 by lia. intros K. match goal with H : ~ In _ _ |- _ => apply H end. eapply nth_error_In. exact K.
  Qed.
  Lemma link0 n vf sf : triple0 (resolve_link n) vf sf True [n] [] (fun M ns i => at_pos n ns (N.to_nat i)).
  Proof.
    intros lf s Hi Hl _ _ _. destruct Hl as [Hl|(r & ks & p & lf' & -> & Hl)]; [discriminate Hl|]. cbn [length] in Hl. unfold resolve_link. rewrite (i_l _ _ _ _ Hi).
    destruct (use_link n r ks p lf' (i_li _ _ _ _ Hi) ltac:(lia)) as (i & -> & Hat & HI). split; [exact I|]. rewrite addv_nil. cbn [usel length].
    split; [|split; [|split; [cbn; tauto|split; [intros; exact I|]]]].
    - destruct Hi. constructor; cbn; try assumption; [reflexivity|]. inversion i_lo0; subst. constructor; assumption.
    - constructor; cbn; try apply prefix_refl; try lia; reflexivity.
    - intros M ns _ Hp _. cbn [topl] in Hp. rewrite Nnat.Nat2N.id. eapply at_pos_prefix; eassumption.
  Qed.

  Lemma var0 n vf sf : triple0 (resolve_var n) vf sf (In n (vars vf)) [] [] (fun M ns v => view_var M (fst v) (snd v) = Some n).
  Proof.
    intros lf s Hi _ _ _ _. unfold resolve_var. rewrite (i_v _ _ _ _ Hi).
    destruct (v_sim sdec vf (VResolve n) (i_vi _ _ _ _ Hi)) as [H|[[[_ [H|[k H]]] _]|[_ (fs' & a & Ha & E & HI')]]]; [exfalso; apply H; exact I|discriminate H|discriminate H|].
    cbn [vt_step] in E. destruct (vt_resolve sdec n (vabs vf)) as [q|]; [|discriminate E]. cbn in E. inversion E; subst q. clear E.
    inversion Ha; subst; cbn [vars].
    - tauto.
    - assumption.
    - match goal with H : at_pos _ _ _ |- _ => rename H into H3 end. split; [eapply nth_error_In; apply H3|]. rewrite addv_nil, usel_nil. split; [exact Hi|]. split; [apply grows_refl|]. split; [cbn; tauto|]. split; [intros; exact I|].
      intros M ns _ _ HG. destruct (d_vars _ _ _ _ HG _ _ _ eq_refl) as (x & y & E1 & E2 & E3). unfold view_var. cbn [fst snd]. rewrite E1, E2.
      destruct H3 as [H3 _]. assert (K := prefix_nth _ _ _ _ E3 H3). rewrite nth_error_map in K. unfold lookup. rewrite Nnat.Nat2N.id. exact K.
  Qed.

  Lemma bound_in sf k : In k (bound sf) <-> exists n, declared sf k n.
  Proof.
    unfold bound, declared. rewrite in_flat_map. split.
    - intros (f & Hf & H). apply in_map_iff in H as ([k' n] & <- & H). exists n, f. auto.
    - intros (n & f & Hf & H). exists f. split; [exact Hf|]. apply in_map_iff. exists (k, n). auto.
  Qed.
  Lemma binds_declared (sf : sframes) k n : binds sf k n -> declared sf k n.
  Proof. induction 1 as [r ds fs k n H|r ds fs k n _ _ IH]; [exists (r, ds); cbn; auto|]. destruct IH as (f & Hf & H). exists f. cbn. auto. Qed.

  Lemma find_import n (im : list (str * N)) : match find (fun e => str_eqb n (fst e)) im with Some e => In e im /\ fst e = n | None => ~ In n (map fst im) end.
  Proof.
    assert (Heq : forall a b, str_eqb a b = true <-> a = b).
    { unfold str_eqb. induction a as [|x a IH]; intros [|y b]; cbn; try (split; [discriminate|intros H; discriminate H]); [tauto|].
      rewrite andb_true_iff, N.eqb_eq, IH. split; [intros [-> ->]; reflexivity|intros [= -> ->]; auto]. }
    induction im as [|e im IH]; cbn; [tauto|]. destruct (str_eqb n (fst e)) eqn:E; [apply Heq in E; auto|].
    destruct (find _ im) as [e'|]; [tauto|]. intros [H|H]; [|tauto]. symmetry in H. apply Heq in H. congruence.
  Qed.
  Lemma symbol0 n vf sf :
    triple0 (resolve_symbol_name n) vf sf True [] (if in_dec (list_eq_dec N.eq_dec) n (bound sf) then [] else [n]) (fun M ns m => view_symbol_name M m = Some n).
  Proof.
    intros lf s Hi _ _ _ _. unfold resolve_symbol_name. rewrite (i_s _ _ _ _ Hi).
    destruct (s_step_sim sdec (fun _ _ _ => True) sf (SResolve n) (i_si _ _ _ _ Hi) I (fun _ _ _ => I)) as [[[_ [H|(k & m & H)]] _]|(fs' & a & Ha & E & HI')]; [discriminate H|discriminate H|].
    cbn [st_step] in E. destruct (st_resolve sdec n (sabs sdec sf)) as [q|]; [|discriminate E]. cbn in E. inversion E; subst q. clear E. rewrite addv_nil, usel_nil.
    inversion Ha; subst.
    - split; [exact I|]. split; [exact Hi|]. split; [apply grows_refl|]. split; [|split; [intros; exact I|]].
      + destruct (in_dec (list_eq_dec N.eq_dec) n (bound fs')) as [K|K]; [cbn; tauto|]. exfalso. apply K. apply bound_in. exists n0. apply binds_declared. assumption.
      + intros M ns _ _ HG. apply (d_syms _ _ _ _ HG). assumption.
    - destruct (in_dec (list_eq_dec N.eq_dec) n (bound fs')) as [K|K]; [exfalso; apply bound_in in K as (m & K); eapply H4; exact K|].
      assert (Hf := find_import n (c_imports s)). destruct (find _ (c_imports s)) as [e|].
      + destruct Hf as [Hin <-]. split; [exact I|]. split; [exact Hi|]. split; [apply grows_refl|]. split; [|split; [intros; exact I|]].
        * intros x. cbn [In]. split; [tauto|]. intros [H|[<-|[]]]; [exact H|]. apply in_map. exact Hin.
        * intros M ns _ _ HG. apply (d_imports _ _ _ _ HG). destruct e; exact Hin.
      + split; [exact I|]. assert (Hlen : length (c_nodes s ++ [TNode (Import n) [] [] [] [] None]) = S (length (c_nodes s))) by (rewrite app_length; cbn; lia). split; [|split; [|split; [|split; [intros; exact I|]]]].
        * destruct Hi. constructor; cbn -[app]; try assumption; try reflexivity; rewrite ?Hlen.
          -- eapply Forall_impl; [|exact i_vo0]. intros f Hfo; cbn in *; lia.
          -- intros k m Hd. specialize (i_sd0 k m Hd). lia.
          -- rewrite map_app. cbn. eapply Permutation_NoDup; [apply Permutation_cons_append|]. constructor; assumption.
          -- apply Forall_app. split; [|constructor; [apply lookup_end|constructor]]. eapply Forall_impl; [|exact i_in0]. intros e He. apply lookup_app_l. exact He.
        * constructor; cbn -[app]; rewrite ?Hlen; try apply prefix_refl; try lia; try reflexivity; [|apply prefix_app]. intros i Hlt _. apply lookup_old. exact Hlt.
        * intros x. unfold names. cbn. rewrite map_app, in_app_iff. cbn. tauto.
        * intros M ns HM _ HG. apply (d_imports _ _ _ _ HG). cbn. apply in_or_app. right. left. reflexivity.
  Qed.

  (** ** Sharing *)
  Lemma list_eqb_eq {A} (e : A -> A -> bool) : (forall a b, e a b = true -> a = b) -> forall l k, list_eqb e l k = true -> l = k.
  Proof. intros He. induction l as [|a l IH]; intros [|b k] H; try discriminate H; [reflexivity|]. cbn in H. apply andb_prop in H as [H1 H2]. f_equal; auto. Qed.
  Lemma literal_eqb_canon a b : literal_eqb feq a b = true -> floats_term canon (Lit a) = floats_term canon (Lit b).
  Proof.
    assert (Hn : forall a b, N.eqb a b = true -> a = b) by (intros; apply N.eqb_eq; assumption).
    destruct a, b; cbn; intros H; try discriminate H.
    - unfold str_eqb in H. apply (list_eqb_eq _ Hn) in H. subst. reflexivity.
    - apply N.eqb_eq in H. subst. reflexivity.
    - apply (list_eqb_eq _ Hn) in H. subst. reflexivity.
    - apply feq_canon in H. rewrite H. reflexivity.
  Qed.
  Lemma literal_eqb_refl a : literal_eqb feq a a = true.
  Proof.
    assert (Hl : forall l, list_eqb N.eqb l l = true) by (induction l as [|x l IH]; cbn; [reflexivity|]; rewrite N.eqb_refl; exact IH).
    destruct a; cbn; [apply Hl|apply N.eqb_refl|apply Hl|apply feq_canon; reflexivity].
  Qed.
  Definition same_term (a b : @tterm F) : Prop := a = b \/ exists l k, a = TLit l /\ b = TLit k /\ literal_eqb feq l k = true.
  Lemma tterm_eqb_same a b : tterm_eqb feq a b = true -> same_term a b.
  Proof.
    assert (Hn : forall a b, N.eqb a b = true -> a = b) by (intros; apply N.eqb_eq; assumption).
    assert (Hp : forall a b, part_eqb a b = true -> a = b) by (intros [x|x] [y|y] H; cbn in H; try discriminate H; f_equal; auto).
    destruct a, b; cbn; intros H; try discriminate H; try (left; reflexivity).
    - apply andb_prop in H as [H1 H2]. left. f_equal; auto.
    - apply andb_prop in H as [H1 H2]. left. f_equal; [auto|apply (list_eqb_eq _ Hn _ _ H2)].
    - left. f_equal. apply (list_eqb_eq _ Hp _ _ H).
    - right. eauto.
    - left. f_equal. auto.
    - left. f_equal. apply (list_eqb_eq _ Hp _ _ H).
  Qed.
  Lemma share0 x vf sf : triple0 (share_term feq x) vf sf True [] [] (fun M ns id => exists y, lookup (tm_terms M) id = Some y /\ same_term x y).
  Proof.
    intros lf s Hi _ _ _ _. unfold share_term. rewrite addv_nil, usel_nil. destruct (find _ (c_cache s)) as [e|] eqn:E.
    - apply find_some in E as [Hin E]. split; [exact I|]. split; [exact Hi|]. split; [apply grows_refl|]. split; [cbn; tauto|]. split; [intros; exact I|].
      intros M ns HM _ _. exists (fst e). split; [|apply tterm_eqb_same; exact E]. assert (K := proj1 (Forall_forall _ _) (i_c _ _ _ _ Hi) e Hin). cbn in K.
      destruct (a_terms _ _ _ _ HM) as [l ->]. apply lookup_app_l. exact K.
    - split; [exact I|]. split; [|split; [|split; [cbn; tauto|split; [intros; exact I|]]]].
      + destruct Hi. constructor; cbn -[app]; try assumption. apply Forall_app. split; [|constructor; [apply lookup_end|constructor]].
        eapply Forall_impl; [|exact i_c0]. intros e He. apply lookup_app_l. exact He.
      + constructor; cbn -[app]; try apply prefix_refl; try lia; try reflexivity. apply prefix_app.
      + intros M ns HM _ _. exists x. split; [|left; reflexivity]. destruct (a_terms _ _ _ _ HM) as [l ->]. apply lookup_app_l. apply lookup_end.
  Qed.

  (** ** Views *)
  Definition shows {X} (v : nat -> option X) (x : X) : Prop := exists k, forall n, k <= n -> v n = Some x.
  Lemma shows_list {A I X Y} (V : nat -> I -> option X) (e : X -> Y) (w : A -> Y) l is :
    Forall2 (fun a i => exists x, shows (fun n => V n i) x /\ e x = w a) l is -> exists xs, shows (fun n => all_some (V n) is) xs /\ map e xs = map w l.
  Proof.
    induction 1 as [|a i l is (x & [k Hk] & Hx) _ (xs & [k' Hk'] & Hxs)].
    - exists []. split; [exists 0; reflexivity|reflexivity].
    - exists (x :: xs). split; [|cbn; congruence]. exists (Nat.max k k'). intros n Hn. cbn. rewrite Hk, Hk' by lia. reflexivity.
  Qed.
  Lemma shows_opt {A I X Y} (V : nat -> I -> option X) (e : X -> Y) (w : A -> Y) (o : option A) (i : option I) :
    match o, i with Some a, Some i => exists x, shows (fun n => V n i) x /\ e x = w a | None, None => True | _, _ => False end ->
    exists x, shows (fun n => opt_some (V n) i) x /\ option_map e x = option_map w o.
  Proof.
    destruct o as [a|], i as [i|]; try tauto.
    - intros (x & [k Hk] & Hx). exists (Some x). split; [|cbn; congruence]. exists k. intros n Hn. cbn. rewrite Hk by lia. reflexivity.
    - intros _. exists None. split; [exists 0; reflexivity|reflexivity].
  Qed.
  Definition sees_term (M : tmodule) (t : term) (i : N) : Prop :=
    exists t', shows (fun n => view_term M n i) t' /\ floats_term canon t' = floats_term canon (numbered_term t).
  Definition sees_region (M : tmodule) (f : option (str -> str)) (r : region) (i : N) : Prop :=
    exists r', shows (fun n => view_region M n i) r' /\ floats_region canon r' = floats_region canon (numbered_region f r).
  Definition sees_node (M : tmodule) (f : str -> str) (n : node) (i : N) : Prop :=
    exists n', shows (fun k => view_node M k i) n' /\ floats_node canon n' = floats_node canon (numbered_node f n).
  (** The name of a link in a scope with the links [ns]. *)
  Definition at_names (ns : list str) (n : str) : str := show_nat (N.of_nat (position n ns)).

  Definition term_claim (t : term) : Prop := forall vf sf, fits_term (N.of_nat (length sf)) t ->
    triple0 (resolve_term feq t) vf sf (scoped_term (vars vf) t) [] (open_term (bound sf) t) (fun M ns i => sees_term M t i).
  Definition region_claim (r : region) : Prop := forall closed vf sf, fits_region closed (N.of_nat (length sf)) r ->
    triple0 (resolve_region feq closed r) vf sf (scoped_region (vars vf) r) (if closed then [] else region_links r) (open_region (bound sf) r)
            (fun M ns i => sees_region M (if closed then None else Some (at_names ns)) r i).
  Definition node_claim (n : node) : Prop := forall id vf sf, fits_node (N.of_nat (length sf)) n -> ~ In id (map fst vf) ->
    triple (resolve_node feq id n) vf sf sf [id] (scoped_node (vars vf) n) [] (node_links n) (open_node (bound sf) n)
           (fun M _ => view_symbol_name M id = op_symbol_name (node_op n)) (fun M ns _ => sees_node M (at_names ns) n id).

  Lemma all_forall {A} (P : A -> Prop) l : all P l <-> Forall P l.
  Proof. induction l as [|a l IH]; cbn; [split; [constructor|tauto]|]. rewrite IH. split; [intros [H1 H2]; constructor; assumption|intros H; inversion H; tauto]. Qed.

  Lemma terms0 ts vf sf : Forall term_claim ts -> all (fits_term (N.of_nat (length sf))) ts ->
    triple0 (each (fun t => resolve_term feq t) ts) vf sf (all (scoped_term (vars vf)) ts) [] (flat_map (open_term (bound sf)) ts) (fun M ns is => Forall2 (sees_term M) ts is).
  Proof.
    intros Hc Hf. apply all_forall in Hf. eapply conv0; [apply (each0 _ ts vf sf (scoped_term (vars vf)) (fun _ => []) (open_term (bound sf)) (fun t M ns i => sees_term M t i))|tauto| |tauto|tauto].
    - induction Hc as [|t ts Ht _ IH]; inversion Hf; subst; constructor; [apply Ht; assumption|apply IH; assumption].
    - clear. induction ts; [reflexivity|assumption].
  Qed.
  Lemma optterm0 g vf sf : (forall t, g = Some t -> term_claim t) -> opt_holds (fits_term (N.of_nat (length sf))) g ->
    triple0 (opt_each (fun t => resolve_term feq t) g) vf sf (opt_holds (scoped_term (vars vf)) g) [] (opt_list (open_term (bound sf)) g)
            (fun M ns i => match g, i with Some t, Some i => sees_term M t i | None, None => True | _, _ => False end).
  Proof.
    intros Hc Hf. destruct g as [t|]; cbn [opt_each opt_holds opt_list] in *; [|apply ret0; intros; exact I].
    eapply conv0; [refine (bind0 _ _ vf sf _ True [] [] _ [] (fun M ns i => sees_term M t i) _ (Hc t eq_refl vf sf Hf) _)|tauto|reflexivity|intros n; rewrite app_nil_r; tauto|intros M ns a H; exact H].
    intros i. apply ret0. intros M ns H. exact H.
  Qed.
  Lemma links0 l vf sf : triple0 (each resolve_link l) vf sf True l [] (fun M ns is => map view_link is = map (at_names ns) l).
  Proof.
    eapply conv0; [apply (each0 _ l vf sf (fun _ => True) (fun n => [n]) (fun _ => []) (fun n M ns i => at_pos n ns (N.to_nat i)))| | | |].
    - apply Forall_forall. intros n _. apply link0.
    - split; [tauto|]. intros _. apply all_forall. apply Forall_forall. tauto.
    - induction l as [|n l IH]; cbn; [reflexivity|]. rewrite IH. reflexivity.
    - intros n. split; [|intros []]. intros H. apply in_flat_map in H as (x & _ & H). exact H.
    - cbn beta. intros M ns is H. induction H as [|n i l is Hn _ IH]; [reflexivity|]. cbn. rewrite IH. f_equal. unfold view_link, at_names. rewrite (at_pos_position _ _ _ Hn), Nnat.N2Nat.id. reflexivity.
  Qed.

  (** ** Terms *)
  Lemma term_view M t x y id : lookup (tm_terms M) id = Some y -> same_term x y ->
    (exists t', floats_term canon t' = floats_term canon (numbered_term t) /\
       shows (fun n => match x with
                       | TWildcard => Some Wildcard
                       | TVar a i => option_map Var (view_var M a i)
                       | TApply a ts => match view_symbol_name M a, all_some (view_term M n) ts with Some k, Some ts => Some (Apply k ts) | _, _ => None end
                       | TList ps => option_map List (all_some (view_part (view_term M n)) ps)
                       | TLit l => Some (Lit l)
                       | TTuple ps => option_map Tuple (all_some (view_part (view_term M n)) ps)
                       | TFunc r => option_map Func (view_region M n r)
                       end) t') -> sees_term M t id.
  Proof.
    intros Hl Hs (t' & Ht & [k Hk]). destruct Hs as [->|(l & l' & -> & -> & He)].
    - exists t'. split; [|exact Ht]. exists (S k). intros [|n] Hn; [lia|]. cbn [view_term]. rewrite Hl. apply Hk. lia.
    - exists (Lit l'). specialize (Hk k (Nat.le_refl k)). inversion Hk; subst t'. split; [|rewrite <- Ht; symmetry; apply literal_eqb_canon; exact He].
      exists 1. intros [|n] Hn; [lia|]. cbn [view_term]. rewrite Hl. reflexivity.
  Qed.
  (** The last step of [resolve_term]. *)
  Lemma finish0 (c : comp (@tterm F)) t vf sf ok fr :
    triple0 c vf sf ok [] fr (fun M ns x => exists t', floats_term canon t' = floats_term canon (numbered_term t) /\
       shows (fun n => match x with
                       | TWildcard => Some Wildcard
                       | TVar a i => option_map Var (view_var M a i)
                       | TApply a ts => match view_symbol_name M a, all_some (view_term M n) ts with Some k, Some ts => Some (Apply k ts) | _, _ => None end
                       | TList ps => option_map List (all_some (view_part (view_term M n)) ps)
                       | TLit l => Some (Lit l)
                       | TTuple ps => option_map Tuple (all_some (view_part (view_term M n)) ps)
                       | TFunc r => option_map Func (view_region M n r)
                       end) t') ->
    triple0 (bind c (share_term feq)) vf sf ok [] fr (fun M ns i => sees_term M t i).
  Proof.
    intros T. eapply conv0; [refine (bind0 c (share_term feq) vf sf ok True [] [] fr [] _ (fun M ns i => sees_term M t i) T _)|tauto|reflexivity|intros n; rewrite app_nil_r; tauto|tauto].
    intros x. eapply conv0; [apply share0|tauto|reflexivity|tauto|]. cbn beta. intros M ns id (y & Hy & Hs) H. eapply term_view; eassumption.
  Qed.

  (** ** Parts *)
  Definition sees_part (M : tmodule) (p : part term) (q : part N) : Prop :=
    exists p', shows (fun n => view_part (view_term M n) q) p' /\ map_part (floats_term canon) p' = map_part (floats_term canon) (map_part numbered_term p).
  Definition part_term {T} (p : part T) : T := match p with Item t | Splice t => t end.
  Lemma parts0 ps vf sf : Forall (fun p => term_claim (part_term p)) ps -> all (fun p => match p with Item t | Splice t => fits_term (N.of_nat (length sf)) t end) ps ->
    triple0 (each (resolve_part (fun t => resolve_term feq t)) ps) vf sf (all (fun p => match p with Item t | Splice t => scoped_term (vars vf) t end) ps) []
            (flat_map (fun p => match p with Item t | Splice t => open_term (bound sf) t end) ps) (fun M ns qs => Forall2 (sees_part M) ps qs).
  Proof.
    intros Hc Hf. apply all_forall in Hf.
    eapply conv0; [apply (each0 _ ps vf sf (fun p => match p with Item t | Splice t => scoped_term (vars vf) t end) (fun _ => [])
      (fun p => match p with Item t | Splice t => open_term (bound sf) t end) (fun p M ns q => sees_part M p q))|tauto| |tauto|tauto].
    - apply Forall_forall. intros p Hp. assert (H1 := proj1 (Forall_forall _ _) Hc p Hp). assert (H2 := proj1 (Forall_forall _ _) Hf p Hp). cbn beta in *.
      destruct p as [t|t]; cbn [resolve_part part_term] in *;
        (eapply conv0; [refine (bind0 _ _ vf sf _ True [] [] _ [] (fun M ns i => sees_term M t i) _ (H1 vf sf H2) _)|tauto|reflexivity|intros n; rewrite app_nil_r; tauto|intros M ns a H; exact H]);
        intros i; apply ret0; intros M ns (t' & [k Hk] & Ht).
      + exists (Item t'). split; [|cbn; congruence]. exists k. intros n Hn. cbn. rewrite Hk by lia. reflexivity.
      + exists (Splice t'). split; [|cbn; congruence]. exists k. intros n Hn. cbn. rewrite Hk by lia. reflexivity.
    - clear. induction ps; [reflexivity|assumption].
  Qed.
  Lemma see_parts M ps qs : Forall2 (sees_part M) ps qs ->
    exists ps', shows (fun n => all_some (view_part (view_term M n)) qs) ps' /\ map (map_part (floats_term canon)) ps' = map (map_part (floats_term canon)) (map (map_part numbered_term) ps).
  Proof. intros H. rewrite (map_map (map_part numbered_term)). apply (shows_list (fun n => view_part (view_term M n)) (map_part (floats_term canon)) _ ps qs H). Qed.
  Lemma see_terms M ts is : Forall2 (sees_term M) ts is ->
    exists ts', shows (fun n => all_some (view_term M n) is) ts' /\ map (floats_term canon) ts' = map (floats_term canon) (map numbered_term ts).
  Proof. intros H. rewrite (map_map numbered_term). apply (shows_list (fun n => view_term M n) (floats_term canon) _ ts is H). Qed.

  Lemma term_step t :
    match t with
    | Apply _ ts => Forall term_claim ts
    | List ps | Tuple ps => Forall (fun p => term_claim (part_term p)) ps
    | Func r => region_claim r
    | _ => True
    end -> term_claim t.
  Proof.
    intros IH vf sf Hf. destruct t as [|n|n ts|ps|l|ps|r]; cbn [resolve_term scoped_term open_term fits_term] in *; apply finish0.
    - apply ret0. intros M ns. exists Wildcard. split; [reflexivity|]. exists 0. reflexivity.
    - eapply conv0; [refine (bind0 _ _ vf sf _ True [] [] [] [] _ _ (var0 n vf sf) _)|tauto|reflexivity|tauto|intros M ns a H; exact H].
      intros v. apply ret0. intros M ns H. exists (Var n). split; [reflexivity|]. exists 0. intros k _. rewrite H. reflexivity.
    - eapply conv0; [refine (bind0 _ _ vf sf _ _ [] [] _ _ _ _ (symbol0 n vf sf) (fun m => bind0 _ _ vf sf _ True [] [] _ [] _ _ (terms0 ts vf sf IH Hf) _))|tauto|reflexivity|intros x; rewrite app_nil_r; tauto|intros M ns a H; exact H].
      intros is. apply ret0. intros M ns H1 H2. destruct (see_terms _ _ _ H1) as (ts' & [k Hk] & Ht). exists (Apply n ts'). split; [cbn; congruence|].
      exists k. intros j Hj. rewrite H2, Hk by lia. reflexivity.
    - eapply conv0; [refine (bind0 _ _ vf sf _ True [] [] _ [] _ _ (parts0 ps vf sf IH Hf) _)|tauto|reflexivity|intros x; rewrite app_nil_r; tauto|intros M ns a H; exact H].
      intros qs. apply ret0. intros M ns H. destruct (see_parts _ _ _ H) as (ps' & [k Hk] & Ht). exists (List ps'). split; [cbn; congruence|].
      exists k. intros j Hj. rewrite Hk by lia. reflexivity.
    - apply ret0. intros M ns. exists (Lit l). split; [reflexivity|]. exists 0. reflexivity.
    - eapply conv0; [refine (bind0 _ _ vf sf _ True [] [] _ [] _ _ (parts0 ps vf sf IH Hf) _)|tauto|reflexivity|intros x; rewrite app_nil_r; tauto|intros M ns a H; exact H].
      intros qs. apply ret0. intros M ns H. destruct (see_parts _ _ _ H) as (ps' & [k Hk] & Ht). exists (Tuple ps'). split; [cbn; congruence|].
      exists k. intros j Hj. rewrite Hk by lia. reflexivity.
    - eapply conv0; [refine (bind0 _ _ vf sf _ True [] [] _ [] _ _ (IH true vf sf Hf) _)|tauto|reflexivity|intros x; rewrite app_nil_r; tauto|intros M ns a H; exact H].
      intros i. apply ret0. intros M ns (r' & [k Hk] & Hr). exists (Func r'). split; [change (Func (floats_region canon r') = Func (floats_region canon (numbered_region None r))); rewrite Hr; reflexivity|].
      exists k. intros j Hj. rewrite Hk by lia. reflexivity.
  Qed.

  (** ** Symbols and operations *)
  Lemma grows_same W s s' : c_terms s' = c_terms s -> c_nodes s' = c_nodes s -> c_regions s' = c_regions s -> c_imports s' = c_imports s -> grows W s s'.
  Proof. intros E1 E2 E3 E4. constructor; rewrite ?E1, ?E2, ?E3, ?E4; try apply prefix_refl; try lia; reflexivity. Qed.

  Lemma triple_ret0 {A} (a : A) vf sf (see0 : tmodule -> A -> Prop) (see : tmodule -> list str -> A -> Prop) : (forall M, see0 M a) -> (forall M ns, see M ns a) -> triple (ret a) vf sf sf [] True [] [] [] see0 see.
  Proof.
    intros H0 H lf s Hi _ _ _ _. unfold ret. split; [exact I|]. rewrite addv_nil, usel_nil. split; [exact Hi|]. split; [apply grows_refl|].
    split; [cbn; tauto|]. split; intros; [apply H0|apply H].
  Qed.
  Lemma param1 n id ks vf sf :
    triple (fun s => match vt_insert sdec n (c_vars s) with Some (v, VId _ _) => Ok (tt, with_vars s v) | Some _ => Err (DuplicateVar n) | None => Crash end)
           ((id, ks) :: vf) sf sf [] (~ In n ks) [n] [] [] yes (fun _ _ _ => True).
  Proof.
    intros lf s Hi _ Hv _ _. destruct Hv as [Hv|(id' & ks' & vf' & [= <- <- <-] & Hv)]; [discriminate Hv|]. rewrite (i_v _ _ _ _ Hi).
    rewrite app_length in Hv. cbn [length] in Hv.
    destruct (v_sim sdec _ (VInsert n) (i_vi _ _ _ _ Hi)) as [H|[[[H _] _]|[_ (fs' & a & Ha & E & HI')]]]; [exfalso; apply H; cbn; lia|discriminate H|].
    cbn [vt_step] in E. rewrite E. inversion Ha; subst; [tauto|]. split; [assumption|]. rewrite usel_nil. cbn [addv].
    split; [|split; [apply grows_same; reflexivity|split; [cbn; tauto|split; intros; exact I]]].
    destruct Hi. constructor; cbn; try assumption; [reflexivity|]. inversion i_vo0; subst. constructor; assumption.
  Qed.
  Lemma seq {A B} (c : comp A) (k : A -> comp B) vf sf ok1 ok2 ok nv1 nv2 nv nl1 nl2 nl fr1 fr2 fr (see01 : tmodule -> A -> Prop) (see02 : tmodule -> B -> Prop) (see1 : tmodule -> list str -> A -> Prop) (see2 : tmodule -> list str -> B -> Prop) :
    triple c vf sf sf [] ok1 nv1 nl1 fr1 see01 see1 ->
    (forall a, triple (k a) (addv vf nv1) sf sf [] ok2 nv2 nl2 fr2 (fun M b => see01 M a -> see02 M b) (fun M ns b => see1 M ns a -> see2 M ns b)) ->
    (ok1 /\ ok2 <-> ok) -> nv1 ++ nv2 = nv -> nl1 ++ nl2 = nl -> (forall n, In n (fr1 ++ fr2) <-> In n fr) ->
    triple (bind c k) vf sf sf [] ok nv nl fr see02 see2.
  Proof.
    intros T1 T2 H1 <- <- H2. eapply triple_conv; [exact (triple_bind c k vf sf sf [] [] ok1 ok2 nv1 nv2 nl1 nl2 fr1 fr2 see01 see02 see1 see2 T1 T2)|exact H1|exact H2|tauto|tauto].
  Qed.
  Lemma triple_map {A B} (c : comp A) (g : A -> B) vf sf ok nv nl fr (see0 : tmodule -> A -> Prop) (see0' : tmodule -> B -> Prop) (see : tmodule -> list str -> A -> Prop) (see' : tmodule -> list str -> B -> Prop) :
    triple c vf sf sf [] ok nv nl fr see0 see -> (forall M a, see0 M a -> see0' M (g a)) -> (forall M ns a, see M ns a -> see' M ns (g a)) ->
    triple (bind c (fun a => ret (g a))) vf sf sf [] ok nv nl fr see0' see'.
  Proof.
    intros T H1 H2. eapply seq; [exact T| | | | |]; [|split; [intros [H _]; exact H|intros H; exact (conj H I)]|apply app_nil_r|apply app_nil_r|rewrite app_nil_r; tauto].
    intros a. apply triple_ret0; [intros M; apply H1|intros M ns; apply H2].
  Qed.
  Lemma param0 p id ks vf sf : term_claim (snd p) -> fits_term (N.of_nat (length sf)) (snd p) ->
    triple (resolve_param (fun t => resolve_term feq t) p) ((id, ks) :: vf) sf sf [] (scoped_term ks (snd p) /\ ~ In (fst p) ks) [fst p] [] (open_term (bound sf) (snd p))
           (fun M q => fst q = fst p) (fun M ns q => fst q = fst p /\ sees_term M (snd p) (snd q)).
  Proof.
    intros Hc Hf. unfold resolve_param. eapply seq; [exact (Hc ((id, ks) :: vf) sf Hf)| |reflexivity|reflexivity|reflexivity|intros n; rewrite app_nil_r; tauto].
    intros i. rewrite addv_nil. eapply (triple_map _ (fun _ : unit => (fst p, i))); [apply param1|reflexivity|]. intros M ns _ _ H. split; [reflexivity|exact H].
  Qed.
  Lemma params0 ps : Forall (fun p => term_claim (snd p)) ps -> forall id ks vf sf, all (fun p => fits_term (N.of_nat (length sf)) (snd p)) ps ->
    triple (each (resolve_param (fun t => resolve_term feq t)) ps) ((id, ks) :: vf) sf sf [] (scoped_params scoped_term ks ps) (map fst ps) [] (flat_map (fun p => open_term (bound sf) (snd p)) ps)
           (fun M qs => map fst qs = map fst ps) (fun M ns qs => Forall2 (fun p q => fst q = fst p /\ sees_term M (snd p) (snd q)) ps qs).
  Proof.
    induction 1 as [|p ps Hp _ IH]; intros id ks vf sf Hf; cbn [each scoped_params map flat_map all] in *.
    - apply triple_ret0; [reflexivity|constructor].
    - destruct Hf as [Hf1 Hf2]. eapply seq; [exact (param0 p id ks vf sf Hp Hf1)| |apply and_assoc|reflexivity|reflexivity|intros n; reflexivity].
      intros q. cbn [addv]. eapply triple_map; [apply IH; exact Hf2| |].
      + intros M qs H1 H2. cbn. congruence.
      + intros M ns qs H1 H2. constructor; assumption.
  Qed.
  Definition sees_symbol (M : tmodule) (x : symbol term) (y : symbol N) : Prop :=
    exists z, shows (fun n => view_symbol (view_term M n) y) z /\ map_symbol (floats_term canon) z = map_symbol (floats_term canon) (map_symbol numbered_term x).
  Definition symbol_claim (x : symbol term) : Prop := Forall (fun p => term_claim (snd p)) (s_params x) /\ Forall term_claim (s_where x) /\ term_claim (s_sig x).
  Lemma see_params M ps qs : Forall2 (fun p q => fst q = fst p /\ sees_term M (snd p) (snd q)) ps qs ->
    exists ps', shows (fun n => all_some (view_param (view_term M n)) qs) ps' /\
      map (fun p => (fst p, floats_term canon (snd p))) ps' = map (fun p => (fst p, floats_term canon (snd p))) (map (fun p => (fst p, numbered_term (snd p))) ps).
  Proof.
    intros H. rewrite (map_map (fun p => (fst p, numbered_term (snd p)))). apply (shows_list (fun n => view_param (view_term M n)) (fun p => (fst p, floats_term canon (snd p)))).
    induction H as [|p q ps qs [E (t & [k Hk] & Ht)] _ IH]; constructor; [|exact IH]. exists (fst q, t). split.
    - exists k. intros n Hn. unfold view_param. rewrite Hk by lia. reflexivity.
    - cbn [fst snd]. rewrite E, Ht. reflexivity.
  Qed.
  Lemma sym0 x id vf sf : symbol_claim x -> fits_symbol (fits_term (N.of_nat (length sf))) x ->
    triple (resolve_symbol (fun t => resolve_term feq t) x) ((id, []) :: vf) sf sf [] (scoped_symbol scoped_term x) (map fst (s_params x)) [] (open_symbol (open_term (bound sf)) x)
           (fun M y => s_name y = s_name x /\ map fst (s_params y) = map fst (s_params x)) (fun M ns y => sees_symbol M x y).
  Proof.
    intros (C1 & C2 & C3) (_ & H1 & H2 & H3). unfold resolve_symbol, scoped_symbol, open_symbol.
    eapply seq; [exact (params0 _ C1 id [] vf sf H1)| |reflexivity|apply app_nil_r|reflexivity|intros n; reflexivity]. intros ps. cbn [addv app].
    eapply seq; [exact (terms0 _ ((id, map fst (s_params x)) :: vf) sf C2 H2)| |reflexivity|reflexivity|reflexivity|intros n; reflexivity]. intros ws. rewrite addv_nil.
    eapply triple_map; [exact (C3 ((id, map fst (s_params x)) :: vf) sf H3)| |].
    - intros M g _ _ H. cbn. auto.
    - intros M ns g (g' & [k Hk] & Hg) Hw Hp. destruct (see_params _ _ _ Hp) as (ps' & [k1 Hk1] & Hps). destruct (see_terms _ _ _ Hw) as (ws' & [k2 Hk2] & Hws).
      exists (Symbol (s_vis x) (s_name x) ps' ws' g'). split.
      + exists (Nat.max k (Nat.max k1 k2)). intros n Hn. unfold view_symbol. cbn [s_params s_where s_sig s_vis s_name]. rewrite Hk, Hk1, Hk2 by lia. reflexivity.
      + unfold map_symbol. cbn [s_params s_where s_sig s_vis s_name]. rewrite Hps, Hws, Hg. reflexivity.
  Qed.

  Definition sees_operation (M : tmodule) (o : operation term) (o' : operation N) : Prop :=
    exists z, shows (fun n => view_operation (view_term M n) o') z /\ map_operation (floats_term canon) z = map_operation (floats_term canon) (map_operation numbered_term o).
  Definition operation_claim (o : operation term) : Prop :=
    match o with
    | DefineFunc x | DeclareFunc x | DeclareAlias x | DeclareConstructor x | DeclareOperation x => symbol_claim x
    | DefineAlias x t => symbol_claim x /\ term_claim t
    | Custom t => term_claim t
    | _ => True
    end.
  Definition inner_frames (o : operation term) (id : N) (vf : vframes) : vframes := if has_symbol o then (id, []) :: vf else vf.
  Definition op_vars {T} (o : operation T) : list str := match op_symbol o with Some x => map fst (s_params x) | None => [] end.
  Lemma ops0 o id vf sf : operation_claim o -> fits_operation (fits_term (N.of_nat (length sf))) o ->
    triple (resolve_operation (fun t => resolve_term feq t) o) (inner_frames o id vf) sf sf [] (scoped_operation scoped_term (vars vf) o) (op_vars o) [] (open_operation (open_term (bound sf)) o)
           (fun M o' => op_symbol_name o' = op_symbol_name o /\ has_symbol o' = has_symbol o /\ op_vars o' = op_vars o) (fun M ns o' => sees_operation M o o').
  Proof.
    intros C Hf. destruct o as [| | | |x|x|t|x t|x| | |x|x|n]; cbn [resolve_operation scoped_operation op_vars op_symbol open_operation operation_claim fits_operation inner_frames has_symbol] in *;
      try (apply triple_ret0; [auto|]; intros M ns; eexists; split; [exists 0; reflexivity|reflexivity]);
      try (eapply triple_map; [exact (sym0 x id vf sf C Hf)|cbn; intros M y [E1 E2]; unfold op_vars; cbn; rewrite E1, E2; auto|];
           intros M ns y (z & [k Hk] & Hz); eexists; split; [exists k; intros n Hn; cbn; rewrite Hk by lia; reflexivity|cbn [map_operation]; rewrite Hz; reflexivity]).
    - eapply triple_map; [exact (C vf sf Hf)|cbn; auto|]. intros M ns y (z & [k Hk] & Hz). exists (Custom z). split; [exists k; intros n Hn; cbn; rewrite Hk by lia; reflexivity|cbn [map_operation]; rewrite Hz; reflexivity].
    - destruct C as [C1 C2], Hf as [Hf1 Hf2]. eapply seq; [exact (sym0 x id vf sf C1 Hf1)| |reflexivity|apply app_nil_r|reflexivity|intros n; reflexivity].
      intros y. cbn [addv app]. eapply triple_map; [exact (C2 ((id, map fst (s_params x)) :: vf) sf Hf2)| |].
      + intros M i _ [E1 E2]. unfold op_vars. cbn. rewrite E1, E2. auto.
      + intros M ns i (t' & [k1 Hk1] & Ht) (z & [k Hk] & Hz). exists (DefineAlias z t'). split.
        * exists (Nat.max k k1). intros n Hn. cbn. rewrite Hk, Hk1 by lia. reflexivity.
        * cbn [map_operation]. rewrite Hz, Ht. reflexivity.
  Qed.

  (** ** Nodes *)
  Lemma regions0 closed rs vf sf : Forall region_claim rs -> all (fits_region closed (N.of_nat (length sf))) rs ->
    triple0 (each (fun r => resolve_region feq closed r) rs) vf sf (all (scoped_region (vars vf)) rs) (if closed then [] else flat_map region_links rs) (flat_map (open_region (bound sf)) rs)
            (fun M ns is => Forall2 (sees_region M (if closed then None else Some (at_names ns))) rs is).
  Proof.
    intros Hc Hf. apply all_forall in Hf.
    eapply conv0; [apply (each0 _ rs vf sf (scoped_region (vars vf)) (fun r => if closed then [] else region_links r) (open_region (bound sf))
      (fun r M ns i => sees_region M (if closed then None else Some (at_names ns)) r i))|tauto| |tauto|tauto].
    - induction Hc as [|r rs Hr _ IH]; inversion Hf; subst; constructor; [apply Hr; assumption|apply IH; assumption].
    - clear. destruct closed; [|reflexivity]. induction rs; [reflexivity|assumption].
  Qed.
  Lemma vars_inner o id vf : vars (addv (inner_frames o id vf) (op_vars o)) = inner_vars (vars vf) o.
  Proof. destruct o; cbn; try reflexivity; try (destruct vf as [|[m ks] vf]; cbn; [reflexivity|]; apply app_nil_r). Qed.
  Definition node_body (o : operation term) (rs : list region) (ms : list term) (g : option term) : comp (operation N * list N * list N * option N) :=
    bind (resolve_operation (fun t => resolve_term feq t) o) (fun o' => bind (each (fun t => resolve_term feq t) ms) (fun ms =>
    bind (each (fun r => resolve_region feq (is_define o) r) rs) (fun rs => bind (opt_each (fun t => resolve_term feq t) g) (fun g => ret (o', ms, rs, g))))).
  Definition sees_body (M : tmodule) (ns : list str) (o : operation term) (rs : list region) (ms : list term) (g : option term) (b : operation N * list N * list N * option N) : Prop :=
    match b with
    | (o', ms', rs', g') =>
      sees_operation M o o' /\ Forall2 (sees_term M) ms ms' /\ Forall2 (sees_region M (if is_define o then None else Some (at_names ns))) rs rs' /\
      match g, g' with Some t, Some i => sees_term M t i | None, None => True | _, _ => False end
    end.
  Lemma body0 o ins outs rs ms g id vf sf : operation_claim o -> Forall region_claim rs -> Forall term_claim ms -> (forall t, g = Some t -> term_claim t) ->
    fits_node (N.of_nat (length sf)) (Node o ins outs rs ms g) ->
    triple (node_body o rs ms g) (inner_frames o id vf) sf sf [] (scoped_node (vars vf) (Node o ins outs rs ms g)) (op_vars o) (if is_define o then [] else flat_map region_links rs)
           (open_node (bound sf) (Node o ins outs rs ms g))
           (fun M b => op_symbol_name (fst (fst (fst b))) = op_symbol_name o /\ has_symbol (fst (fst (fst b))) = has_symbol o /\ op_vars (fst (fst (fst b))) = op_vars o)
           (fun M ns b => sees_body M ns o rs ms g b).
  Proof.
    intros C1 C2 C3 C4 Hf.
    change (fits_operation (fits_term (N.of_nat (length sf))) o /\ all (fits_term (N.of_nat (length sf))) ms /\ all (fits_region (is_definition o) (N.of_nat (length sf))) rs /\ opt_holds (fits_term (N.of_nat (length sf))) g) in Hf.
    change (scoped_node (vars vf) (Node o ins outs rs ms g)) with (scoped_operation scoped_term (vars vf) o /\ all (scoped_term (inner_vars (vars vf) o)) ms /\
      all (scoped_region (inner_vars (vars vf) o)) rs /\ opt_holds (scoped_term (inner_vars (vars vf) o)) g).
    change (open_node (bound sf) (Node o ins outs rs ms g)) with (open_operation (open_term (bound sf)) o ++ flat_map (open_term (bound sf)) ms ++ flat_map (open_region (bound sf)) rs ++ opt_list (open_term (bound sf)) g).
    destruct Hf as (F1 & F2 & F3 & F4). replace (is_definition o) with (is_define o) in F3 by (destruct o; reflexivity).
    unfold node_body. eapply seq; [exact (ops0 o id vf sf C1 F1)| |reflexivity|apply app_nil_r|reflexivity|intros n; reflexivity]. intros o'.
    eapply seq; [exact (terms0 ms _ sf C3 F2)| |rewrite vars_inner; reflexivity|reflexivity|reflexivity|intros n; reflexivity]. intros ms'. rewrite addv_nil.
    eapply seq; [exact (regions0 (is_define o) rs _ sf C2 F3)| |rewrite vars_inner; reflexivity|reflexivity|apply app_nil_r|intros n; reflexivity]. intros rs'. rewrite addv_nil.
    eapply triple_conv; [eapply triple_map; [exact (optterm0 g _ sf C4 F4)| |]|rewrite vars_inner; reflexivity|reflexivity| |]; cycle 2.
    - intros M b H. exact H.
    - intros M ns b H. exact H.
    - intros M g' _ _ _ H. exact H.
    - intros M ns g' H1 H2 H3 H4. cbn. auto.
  Qed.

  (** What a step adds does not depend on the other tables. *)
  Lemma inv_vars vf vf' lf sf s : inv vf lf sf s -> vinv vf' -> Forall (fun f => (fst f < N.of_nat (length (c_nodes s)))%N) vf' -> inv vf' lf sf (with_vars s (vabs vf')).
  Proof. intros [] H1 H2. constructor; cbn; try assumption; reflexivity. Qed.
  Lemma enter_vars_ok o id vf lf sf s : inv vf lf sf s -> ~ In id (map fst vf) -> (id < N.of_nat (length (c_nodes s)))%N ->
    exists s', (if has_symbol o then enter_vars id else ret tt) s = Ok (tt, s') /\ inv (inner_frames o id vf) lf sf s' /\
      c_terms s' = c_terms s /\ c_nodes s' = c_nodes s /\ c_regions s' = c_regions s /\ c_imports s' = c_imports s.
  Proof.
    intros Hi Hn Hl. unfold inner_frames. destruct (has_symbol o); [|exists s; auto 10]. exists (with_vars s (vabs ((id, []) :: vf))). unfold enter_vars. rewrite (i_v _ _ _ _ Hi).
    destruct (v_sim sdec vf (VEnter id) (i_vi _ _ _ _ Hi)) as [H|[[[_ [H|[k H]]] _]|[_ (fs' & a & Ha & E & HI')]]]; [tauto|discriminate H|discriminate H|].
    inversion Ha; subst. cbn [vt_step] in E. assert (E' : vt_enter id (vabs vf) = vabs ((id, []) :: vf)) by congruence. rewrite E'. split; [reflexivity|]. split; [|auto]. eapply inv_vars; [exact Hi|exact HI'|].
    constructor; [exact Hl|apply (i_vo _ _ _ _ Hi)].
  Qed.
  Lemma exit_vars_ok o id vf nv lf sf s : inv (addv (inner_frames o id vf) nv) lf sf s -> (has_symbol o = false -> nv = []) ->
    exists s', (if has_symbol o then exit_vars else ret tt) s = Ok (tt, s') /\ inv vf lf sf s' /\
      c_terms s' = c_terms s /\ c_nodes s' = c_nodes s /\ c_regions s' = c_regions s /\ c_imports s' = c_imports s.
  Proof.
    unfold inner_frames. destruct (has_symbol o); intros Hi Hn; [|rewrite (Hn eq_refl), addv_nil in Hi; exists s; auto 10]. exists (with_vars s (vabs vf)). unfold exit_vars. rewrite (i_v _ _ _ _ Hi).
    destruct (v_sim sdec _ VExit (i_vi _ _ _ _ Hi)) as [H|[[[H _] _]|[_ (fs' & a & Ha & E & HI')]]]; [exfalso; apply H; exact I|discriminate H|].
    inversion Ha; subst. cbn [vt_step] in E. destruct (vt_exit _) as [v|]; [|discriminate E]. cbn [option_map] in E. assert (E' : v = vabs fs') by congruence. rewrite E'. split; [reflexivity|]. split; [|auto]. eapply inv_vars; [exact Hi|exact HI'|].
    assert (H := i_vo _ _ _ _ Hi). cbn [addv] in H. inversion H; assumption.
  Qed.
  Lemma set_node_ok id x vf lf sf s : inv vf lf sf s -> lookup (c_nodes s) id = Some new_node ->
    exists s', set_node id x s = Ok (tt, s') /\ inv vf lf sf s' /\ c_terms s' = c_terms s /\ c_regions s' = c_regions s /\ c_imports s' = c_imports s /\
      length (c_nodes s') = length (c_nodes s) /\ lookup (c_nodes s') id = Some x /\ (forall j, j <> id -> lookup (c_nodes s') j = lookup (c_nodes s) j).
  Proof.
    intros Hi Hl. unfold set_node. destruct (list_set_some (N.to_nat id) x (c_nodes s) _ Hl) as (l & -> & L1 & L2 & L3).
    assert (L3' : forall j, j <> id -> lookup l j = lookup (c_nodes s) j) by (intros j Hj; apply L3; lia).
    eexists. split; [reflexivity|]. cbn. split; [|auto 10]. destruct Hi. constructor; cbn; rewrite ?L1; try assumption.
    apply Forall_forall. intros e He. assert (K := proj1 (Forall_forall _ _) i_in0 e He). cbn beta in K. rewrite L3'; [exact K|]. intros E. rewrite E in K. rewrite Hl in K. discriminate K.
  Qed.

  Lemma bind_split {A B C} (c : comp A) (k : A -> comp B) (j : B -> comp C) s : bind (bind c k) j s = bind c (fun a => bind (k a) j) s.
  Proof. unfold bind. destruct (c s) as [[a s']| |]; reflexivity. Qed.
  Lemma bind_ext {A B} (c : comp A) (k k' : A -> comp B) s : (forall a s, k a s = k' a s) -> bind c k s = bind c k' s.
  Proof. intros H. unfold bind. destruct (c s) as [[a s']| |]; [apply H|reflexivity|reflexivity]. Qed.
  Lemma node_program o ins outs rs ms g id s : resolve_node feq id (Node o ins outs rs ms g) s =
    bind (bind (each resolve_link ins) (fun ins => bind (each resolve_link outs) (fun outs => ret (ins, outs)))) (fun l =>
    bind (if has_symbol o then enter_vars id else ret tt) (fun _ => bind (node_body o rs ms g) (fun b =>
    bind (if has_symbol o then exit_vars else ret tt) (fun _ => set_node id (TNode (fst (fst (fst b))) (fst l) (snd l) (snd (fst b)) (snd (fst (fst b))) (snd b)))))) s.
  Proof.
    change (resolve_node feq id (Node o ins outs rs ms g) s) with
      (bind (each resolve_link ins) (fun ins => bind (each resolve_link outs) (fun outs => bind (if has_symbol o then enter_vars id else ret tt) (fun _ =>
       bind (resolve_operation (fun t => resolve_term feq t) o) (fun o' => bind (each (fun t => resolve_term feq t) ms) (fun ms =>
       bind (each (fun r => resolve_region feq (is_define o) r) rs) (fun rs => bind (opt_each (fun t => resolve_term feq t) g) (fun g =>
       bind (if has_symbol o then exit_vars else ret tt) (fun _ => set_node id (TNode o' ins outs rs ms g))))))))) s).
    unfold node_body, bind, ret.
    repeat (match goal with |- context [match ?c with Ok _ => _ | Err _ => _ | Crash => _ end] =>
      lazymatch c with context [match _ with Ok _ => _ | Err _ => _ | Crash => _ end] => fail | _ => destruct c as [[]| |] end end; try reflexivity).
  Qed.

  Lemma node_step o ins outs rs ms g : operation_claim o -> Forall region_claim rs -> Forall term_claim ms -> (forall t, g = Some t -> term_claim t) ->
    node_claim (Node o ins outs rs ms g).
  Proof.
    intros C1 C2 C3 C4 id vf sf Hf Hid lf s Hi Hl _ HW _.
    change (node_links (Node o ins outs rs ms g)) with (ins ++ outs ++ (if is_definition o then [] else flat_map region_links rs)) in *.
    replace (is_definition o) with (is_define o) in * by (destruct o; reflexivity). rewrite app_assoc in *.
    assert (Hnew := HW id (or_introl eq_refl)). rewrite node_program. unfold bind at 1.
    assert (TL : triple0 (bind (each resolve_link ins) (fun ins => bind (each resolve_link outs) (fun outs => ret (ins, outs)))) vf sf True (ins ++ outs) []
                  (fun M ns l => map view_link (fst l) = map (at_names ns) ins /\ map view_link (snd l) = map (at_names ns) outs)).
    { eapply seq; [apply links0| |split; [intros _; exact I|intros _; exact (conj I I)]|reflexivity|reflexivity|intros n; apply (iff_refl (In n ([] ++ [])))]. intros i1. rewrite addv_nil.
      eapply triple_map; [apply links0|intros; exact I|]. intros M ns i2 H2 H1. cbn. auto. }
    apply rooml_app in Hl as [Hl1 Hl2].
    specialize (TL lf s Hi Hl1 (or_introl eq_refl) (fun w F => match F with end) (NoDup_nil _)).
    destruct (bind (each resolve_link ins) _ s) as [[l s1]|e|]; [|tauto|exact TL]. destruct TL as (_ & I1 & G1 & N1 & _ & S1). rewrite addv_nil in *.
    assert (Hidl := lookup_lt _ _ _ Hnew). assert (Hnew1 : lookup (c_nodes s1) id = Some new_node) by (rewrite (g_nodes _ _ _ G1); [exact Hnew|exact Hidl|intros []]).
    destruct (enter_vars_ok o id vf _ sf s1 I1 Hid (lookup_lt _ _ _ Hnew1)) as (s2 & E2 & I2 & P1 & P2 & P3 & P4). unfold bind at 1. rewrite E2.
    assert (Hv : roomv (inner_frames o id vf) (op_vars o)).
    { change (fits_operation (fits_term (N.of_nat (length sf))) o /\ all (fits_term (N.of_nat (length sf))) ms /\ all (fits_region (is_definition o) (N.of_nat (length sf))) rs /\ opt_holds (fits_term (N.of_nat (length sf))) g) in Hf.
      destruct Hf as [Hf _]. unfold inner_frames, has_symbol, op_vars. destruct o; cbn [op_symbol] in *; try (left; reflexivity); right; eexists _, _, _; (split; [reflexivity|]); rewrite app_nil_l, map_length; cbn [fits_operation] in Hf;
        unfold fits_symbol in Hf; tauto. }
    assert (TB := body0 o ins outs rs ms g id vf sf C1 C2 C3 C4 Hf (usel lf (ins ++ outs)) s2 I2 Hl2 Hv (fun w F => match F with end) (NoDup_nil _)).
    unfold bind at 1. destruct (node_body o rs ms g s2) as [[b s3]|e|]; [|exact TB|exact TB]. destruct TB as (K & I3 & G3 & N3 & S03 & S3). rewrite usel_app in *.
    assert (Hhs : has_symbol o = false -> op_vars o = []) by (unfold has_symbol, op_vars; destruct (op_symbol o); [discriminate|reflexivity]).
    destruct (exit_vars_ok o id vf (op_vars o) _ sf s3 I3 Hhs) as (s4 & E4 & I4 & Q1 & Q2 & Q3 & Q4). unfold bind at 1. rewrite E4.
    assert (Hnew4 : lookup (c_nodes s4) id = Some new_node).
    { rewrite Q2, (g_nodes _ _ _ G3); [rewrite P2; exact Hnew1|rewrite P2; apply (lookup_lt _ _ _ Hnew1)|intros []]. }
    destruct b as [[[o' ms'] rs'] g']. cbn [fst snd] in *.
    destruct (set_node_ok id (TNode o' (fst l) (snd l) rs' ms' g') vf _ sf s4 I4 Hnew4) as (s5 & E5 & I5 & R1 & R2 & R3 & R4 & R5 & R6). rewrite E5.
    assert (L1 := g_nlen _ _ _ G1). assert (L3 := g_nlen _ _ _ G3). assert (M1 := g_rlen _ _ _ G1). assert (M3 := g_rlen _ _ _ G3). rewrite P2, P3 in *.
    assert (G : grows [id] s s5).
    { constructor.
      - rewrite R1, Q1. eapply prefix_trans; [apply (g_terms _ _ _ G1)|]. rewrite <- P1. apply (g_terms _ _ _ G3).
      - intros i Hlt Hn. assert (i <> id) by (intros ->; apply Hn; left; reflexivity). rewrite R6, Q2, (g_nodes _ _ _ G3), P2, (g_nodes _ _ _ G1); try tauto. rewrite P2. lia.
      - rewrite R4, Q2. lia.
      - intros i Hlt. rewrite R2, Q3, (g_regions _ _ _ G3), P3, (g_regions _ _ _ G1); try tauto. rewrite P3. lia.
      - rewrite R2, Q3. lia.
      - rewrite R3, Q4. eapply prefix_trans; [apply (g_imports _ _ _ G1)|]. rewrite <- P4. apply (g_imports _ _ _ G3). }
    split; [exact K|]. split; [exact I5|]. split; [exact G|]. split; [|split].
    - intros n. unfold names in *. rewrite R3, Q4. rewrite N3. rewrite P4. rewrite N1. cbn. tauto.
    - intros M HM. unfold view_symbol_name. rewrite (a_nodes _ _ _ _ HM id) by (right; left; reflexivity). rewrite R5. cbn.
      refine (proj1 (S03 (TModule 0%N (c_nodes s3) (c_regions s3) (c_terms s3)) _)). constructor; cbn; [apply prefix_refl|reflexivity|reflexivity].
    - intros M ns HM Hp HG.
      assert (Hx : lookup (tm_nodes M) id = Some (TNode o' (fst l) (snd l) rs' ms' g')) by (rewrite (a_nodes _ _ _ _ HM id) by (right; left; reflexivity); exact R5).
      assert (HM3 : agree M [] s2 s3).
      { constructor.
        - rewrite <- Q1, <- R1. apply (a_terms _ _ _ _ HM).
        - intros i [Hlt|[]]. rewrite P2 in Hlt. rewrite (a_nodes _ _ _ _ HM i) by (left; rewrite R4, Q2; lia). rewrite R6, Q2; [reflexivity|]. intros ->. lia.
        - intros i Hlt. rewrite P3 in Hlt. rewrite (a_regions _ _ _ _ HM i) by (rewrite R2, Q3; lia). rewrite R2, Q3. reflexivity. }
      assert (HM1 : agree M [] s s1).
      { constructor.
        - rewrite <- P1. eapply prefix_trans; [apply (g_terms _ _ _ G3)|]. rewrite <- Q1, <- R1. apply (a_terms _ _ _ _ HM).
        - intros i [Hlt|[]]. rewrite (a_nodes _ _ _ _ HM i) by (left; rewrite R4, Q2; lia). rewrite R6, Q2 by (intros ->; lia). rewrite (g_nodes _ _ _ G3), P2; [reflexivity|rewrite P2; lia|intros []].
        - intros i Hlt. rewrite (a_regions _ _ _ _ HM i) by (rewrite R2, Q3; lia). rewrite R2, Q3, (g_regions _ _ _ G3), P3; [reflexivity|rewrite P3; lia]. }
      destruct (S03 M HM3) as (E1 & E1' & E1'').
      assert (HG3 : good M (addv (inner_frames o id vf) (op_vars o)) sf (c_imports s3)).
      { rewrite R3, Q4 in HG. unfold inner_frames. destruct (has_symbol o) eqn:Hs; [|rewrite (Hhs eq_refl), addv_nil; exact HG]. destruct HG as [D1 D2 D3]. constructor; [|exact D2|exact D3].
        cbn [addv app]. intros n ks vf' [= <- <- <-]. unfold has_symbol, op_vars in *. destruct (op_symbol o) as [y|]; [|discriminate Hs]. destruct (op_symbol o') as [y'|] eqn:Ho; [|discriminate E1'].
        eexists _, y'. split; [exact Hx|]. split; [exact Ho|]. rewrite E1''. apply prefix_refl. }
      assert (HG1 : good M vf sf (c_imports s1)).
      { eapply good_less with (nv := []); [rewrite addv_nil; exact HG|]. rewrite R3, Q4, <- P4. apply (g_imports _ _ _ G3). }
      destruct (S1 M ns HM1) as [V1 V2]; [eapply prefix_trans; [apply topl_prefix|rewrite usel_app; exact Hp]|exact HG1|].
      destruct (S3 M ns HM3 Hp HG3) as ((z & [k1 Hk1] & Hz) & B2 & B3 & B4).
      destruct (see_terms _ _ _ B2) as (ms2 & [k2 Hk2] & Hms).
      destruct (shows_list (fun n => view_region M n) (floats_region canon) _ rs rs' B3) as (rs2 & [k3 Hk3] & Hrs).
      destruct (shows_opt (fun n => view_term M n) (floats_term canon) (fun t => floats_term canon (numbered_term t)) g g' B4) as (g2 & [k4 Hk4] & Hg).
      exists (Node z (map (at_names ns) ins) (map (at_names ns) outs) rs2 ms2 g2). split.
      + exists (S (Nat.max (Nat.max k1 k2) (Nat.max k3 k4))). intros [|n] Hn; [lia|]. cbn [view_node]. rewrite Hx. cbn [tn_op tn_meta tn_sig tn_regions tn_in tn_out].
        rewrite Hk1, Hk2, Hk3, Hk4, V1, V2 by lia. reflexivity.
      + change (Node (map_operation (floats_term canon) z) (map (at_names ns) ins) (map (at_names ns) outs) (map (floats_region canon) rs2) (map (floats_term canon) ms2) (option_map (floats_term canon) g2) =
                Node (map_operation (floats_term canon) (map_operation numbered_term o)) (map (at_names ns) ins) (map (at_names ns) outs)
                  (map (floats_region canon) (map (numbered_region (if is_definition o then None else Some (at_names ns))) rs))
                  (map (floats_term canon) (map numbered_term ms)) (option_map (floats_term canon) (option_map numbered_term g))).
        rewrite Hz, Hrs, Hms, Hg. f_equal; [|destruct g; reflexivity]. rewrite map_map. replace (is_definition o) with (is_define o) by (destruct o; reflexivity). reflexivity.
  Qed.

  (** ** The nodes of a region *)
  Lemma alloc (ns : list node) : forall s : st, each (fun _ => insert_node new_node) ns s =
    Ok (map N.of_nat (List.seq (length (c_nodes s)) (length ns)),
        St (c_nodes s ++ repeat new_node (length ns)) (c_regions s) (c_terms s) (c_vars s) (c_links s) (c_symbols s) (c_imports s) (c_cache s)).
  Proof.
    induction ns as [|n ns IH]; intros s; cbn [each length List.seq repeat map].
    - unfold ret. rewrite app_nil_r. destruct s; reflexivity.
    - unfold bind, insert_node. rewrite IH. cbn. rewrite app_length. cbn. rewrite Nat.add_1_r, <- app_assoc. reflexivity.
  Qed.
  Lemma declared_name_op (n : node) : declared_name n = match op_symbol_name (node_op n) with Some k => [k] | None => [] end.
  Proof. destruct n as [o]. destruct o; reflexivity. Qed.

  Lemma declare_all ns : forall ids r ds sf s, c_symbols s = sabs sdec ((r, ds) :: sf) -> sinv ((r, ds) :: sf) -> NoDup ids -> length ids = length ns ->
    (forall i, In i ids -> forall k, ~ declared ((r, ds) :: sf) k i) ->
    match zip_each (@declare F) ids ns s with
    | Ok (_, s') => exists ds', NoDup (map fst ds ++ declared_names ns) /\ s' = with_symbols s (sabs sdec ((r, ds ++ ds') :: sf)) /\ sinv ((r, ds ++ ds') :: sf) /\
        map fst ds' = declared_names ns /\ (forall k i, In (k, i) ds' -> exists n, In (n, i) (combine ns ids) /\ op_symbol_name (node_op n) = Some k)
    | Err _ => ~ NoDup (map fst ds ++ declared_names ns)
    | Crash => False
    end.
  Proof.
    induction ns as [|n ns IH]; intros [|id ids] r ds sf s Hs HI Hnd Hl Hfr; try discriminate Hl; cbn [zip_each].
    - exists []. unfold declared_names. cbn [flat_map map]. rewrite !app_nil_r. split; [|split; [rewrite <- Hs; destruct s; reflexivity|split; [exact HI|split; [reflexivity|intros k i []]]]].
      destruct HI as (_ & _ & _ & HF). inversion HF; assumption.
    - inversion Hnd; subst. unfold bind, declare. unfold declared_names. cbn [flat_map]. rewrite (declared_name_op n). fold (declared_names ns). destruct (op_symbol_name (node_op n)) as [k|] eqn:En.
      + rewrite Hs. destruct (s_step_sim sdec (fun _ _ _ => True) ((r, ds) :: sf) (SInsert k id) HI (fun k' => Hfr id (or_introl eq_refl) k') (fun _ _ _ => I)) as [[[H _] _]|(fs' & a & Ha & E & HI')]; [discriminate H|].
        cbn [st_step] in E. rewrite E. clear E. inversion Ha; subst.
        * intros K. apply NoDup_remove_2 in K. apply K. apply in_or_app. left. apply in_map_iff. exists (k, m). auto.
        * specialize (IH ids r (ds ++ [(k, id)]) sf (with_symbols s (sabs sdec ((r, ds ++ [(k, id)]) :: sf))) eq_refl HI' H2 ltac:(cbn in Hl; lia)).
          rewrite map_app in IH. cbn [map fst] in IH. rewrite <- app_assoc in IH. cbn [app] in IH |- *.
          assert (K : forall i, In i ids -> forall k0, ~ declared ((r, ds ++ [(k, id)]) :: sf) k0 i).
          { intros i Hi k0 (f & Hf & Hk). destruct Hf as [<-|Hf].
            - cbn in Hk. apply in_app_or in Hk as [Hk|[[= <- <-]|[]]]; [|tauto]. apply (Hfr i (or_intror Hi) k0). exists (r, ds). cbn. auto.
            - apply (Hfr i (or_intror Hi) k0). exists f. cbn. auto. }
          specialize (IH K). destruct (zip_each _ ids ns _) as [[u s']|e|]; [|exact IH|exact IH]. destruct IH as (ds' & J1 & J2 & J3 & J4 & J5).
          exists ((k, id) :: ds'). split; [exact J1|]. rewrite <- app_assoc in J2, J3. split; [exact J2|]. split; [exact J3|]. split; [cbn; congruence|].
          intros k0 i [[= <- <-]|Hk]; [exists n; cbn; auto|]. destruct (J5 k0 i Hk) as (n' & Hn' & Hn''). exists n'. cbn. auto.
      + unfold ret. cbn [app]. specialize (IH ids r ds sf s Hs HI H2 ltac:(cbn in Hl; lia) (fun i Hi => Hfr i (or_intror Hi))).
        destruct (zip_each _ ids ns s) as [[u s']|e|]; [|exact IH|exact IH]. destruct IH as (ds' & J1 & J2 & J3 & J4 & J5). exists ds'. split; [exact J1|]. split; [exact J2|]. split; [exact J3|]. split; [exact J4|].
        intros k0 i Hk. destruct (J5 k0 i Hk) as (n' & Hn' & Hn''). exists n'. cbn. auto.
  Qed.

  Lemma zip0 ns : Forall node_claim ns -> forall ids vf sf, all (fits_node (N.of_nat (length sf))) ns -> length ids = length ns -> (forall i, In i ids -> ~ In i (map fst vf)) ->
    triple (zip_each (fun id n => resolve_node feq id n) ids ns) vf sf sf ids (all (scoped_node (vars vf)) ns) [] (flat_map node_links ns) (flat_map (open_node (bound sf)) ns)
           (fun M _ => Forall2 (fun n id => view_symbol_name M id = op_symbol_name (node_op n)) ns ids) (fun M nms _ => Forall2 (sees_node M (at_names nms)) ns ids).
  Proof.
    induction 1 as [|n ns Hn _ IH]; intros [|id ids] vf sf Hf Hl Hid; try discriminate Hl; cbn [zip_each all flat_map] in *.
    - apply triple_ret0; constructor.
    - destruct Hf as [Hf1 Hf2].
      refine (triple_bind _ _ vf sf sf [id] ids _ _ [] [] _ _ _ _ (fun M _ => view_symbol_name M id = op_symbol_name (node_op n)) _ (fun M nms _ => sees_node M (at_names nms) n id) _ (Hn id vf sf Hf1 (Hid id (or_introl eq_refl))) _).
      intros []. rewrite addv_nil. eapply triple_conv; [apply (IH ids vf sf Hf2); [cbn in Hl; lia|intros i Hi; apply Hid; right; exact Hi]|reflexivity|reflexivity| |].
      + intros M [] H1 H2. constructor; assumption.
      + intros M nms [] H1 H2. constructor; assumption.
  Qed.

  Lemma repeat_lookup {A} (x : A) l k i : (N.of_nat (length l) <= i < N.of_nat (length l + k))%N -> lookup (l ++ repeat x k) i = Some x.
  Proof.
    intros H. unfold lookup. rewrite nth_error_app2 by lia. assert (E : N.to_nat i - length l < k) by lia. revert E. generalize (N.to_nat i - length l). clear.
    induction k as [|k IH]; intros [|j] E; try lia; [reflexivity|]. cbn. apply IH. lia.
  Qed.
  Lemma nodes0 ns : Forall node_claim ns -> forall r vf sf lf s, all (fits_node (N.of_nat (length sf) + 1)) ns -> inv vf lf ((r, []) :: sf) s -> rooml lf (flat_map node_links ns) ->
    match resolve_nodes (fun id n => resolve_node feq id n) ns s with
    | Ok (ids, s') => (NoDup (declared_names ns) /\ all (scoped_node (vars vf)) ns) /\ exists ds, map fst ds = declared_names ns /\
        inv vf (usel lf (flat_map node_links ns)) ((r, ds) :: sf) s' /\ grows [] s s' /\ (forall n, In n (names s') <-> In n (names s) \/ In n (flat_map (open_node (declared_names ns ++ bound sf)) ns)) /\
        (forall M im, agree M [] s s' -> good M vf sf im -> good M vf ((r, ds) :: sf) im) /\
        (forall M nms, agree M [] s s' -> prefix (topl (usel lf (flat_map node_links ns))) nms -> good M vf sf (c_imports s') -> Forall2 (sees_node M (at_names nms)) ns ids)
    | Err _ => ~ (NoDup (declared_names ns) /\ all (scoped_node (vars vf)) ns)
    | Crash => False
    end.
  Proof.
    intros Hc r vf sf lf s Hf Hi Hl. unfold resolve_nodes. unfold bind at 1. rewrite alloc.
    set (ids := map N.of_nat (List.seq (length (c_nodes s)) (length ns))).
    set (s1 := St _ _ _ _ _ _ _ _).
    assert (Hids : forall i, In i ids -> (N.of_nat (length (c_nodes s)) <= i < N.of_nat (length (c_nodes s) + length ns))%N).
    { intros i H. apply in_map_iff in H as (j & <- & H). apply in_seq in H. lia. }
    assert (Hlen : length ids = length ns) by (unfold ids; rewrite map_length, seq_length; reflexivity).
    assert (Hnd : NoDup ids).
    { unfold ids. assert (K := seq_NoDup (length ns) (length (c_nodes s))). clear - K. induction K as [|a l Ha _ IHl]; [constructor|]. cbn. constructor; [|exact IHl]. intros H. apply in_map_iff in H as (j & E & H). apply Nnat.Nat2N.inj in E. subst j. tauto. }
    assert (Hn1 : length (c_nodes s1) = length (c_nodes s) + length ns) by (cbn; rewrite app_length, repeat_length; reflexivity).
    assert (D := declare_all ns ids r [] sf s1 (i_s _ _ _ _ Hi) (i_si _ _ _ _ Hi) Hnd Hlen).
    assert (K : forall i, In i ids -> forall k, ~ declared ((r, []) :: sf) k i).
    { intros i H k Hd. specialize (Hids i H). assert (J := i_sd _ _ _ _ Hi k i Hd). lia. }
    specialize (D K). cbn [map app] in D. unfold bind at 1. destruct (zip_each _ ids ns s1) as [[u s2]|e|]; [|tauto|exact D].
    destruct D as (ds & D1 & -> & D3 & D4 & D5). cbn [app] in D3, D5. set (s2 := with_symbols _ _).
    assert (I2 : inv vf lf ((r, ds) :: sf) s2).
    { destruct Hi. constructor; cbn -[app]; try assumption; try reflexivity; rewrite ?app_length, ?repeat_length.
      - eapply Forall_impl; [|exact i_vo0]. intros f H; cbn in *; lia.
      - inversion i_so0; subst. constructor; assumption.
      - intros k n (f & [<-|Hfi] & Hk).
        + cbn in Hk. destruct (D5 k n Hk) as (n' & Hn' & _). apply in_combine_r in Hn'. specialize (Hids n Hn'). lia.
        + assert (J : (n < N.of_nat (length (c_nodes s)))%N) by (apply (i_sd0 k n); exists f; split; [right; exact Hfi|exact Hk]). lia.
      - eapply Forall_impl; [|exact i_in0]. intros e H. apply lookup_app_l. exact H. }
    assert (Z := zip0 ns Hc ids vf ((r, ds) :: sf)). replace (N.of_nat (length ((r, ds) :: sf))) with (N.of_nat (length sf) + 1)%N in Z by (cbn [length]; lia).
    assert (Hown : forall i, In i ids -> ~ In i (map fst vf)).
    { intros i H J. apply in_map_iff in J as (f & <- & J). assert (Q := proj1 (Forall_forall _ _) (i_vo _ _ _ _ Hi) f J). cbn in Q. specialize (Hids _ H). lia. }
    specialize (Z Hf Hlen Hown lf s2 I2 Hl (or_introl eq_refl)).
    assert (Hnew : forall w, In w ids -> lookup (c_nodes s2) w = Some new_node) by (intros w H; apply repeat_lookup; apply Hids; exact H).
    specialize (Z Hnew Hnd). unfold bind at 1. destruct (zip_each _ ids ns s2) as [[u' s3]|e|]; [|tauto|exact Z]. unfold ret. destruct Z as (Z1 & Z2 & Z3 & Z4 & Z5 & Z6). rewrite addv_nil in *.
    assert (Hn2 : length (c_nodes s2) = length (c_nodes s) + length ns) by (cbn; rewrite app_length, repeat_length; reflexivity).
    assert (L3 := g_nlen _ _ _ Z3). rewrite Hn2 in L3. assert (M3 := g_rlen _ _ _ Z3). change (c_regions s2) with (c_regions s) in M3.
    assert (HA : forall M, agree M [] s s3 -> agree M ids s2 s3).
    { intros M HM. constructor; [apply (a_terms _ _ _ _ HM)| |intros i Hlt; apply (a_regions _ _ _ _ HM i Hlt)].
      intros i [H|H]; apply (a_nodes _ _ _ _ HM i); left; [rewrite Hn2 in H; lia|specialize (Hids i H); lia]. }
    assert (HG : forall M im, agree M [] s s3 -> good M vf sf im -> good M vf ((r, ds) :: sf) im).
    { intros M im HM [G1 G2 G3]. constructor; [exact G1| |exact G3]. intros k n Hb. inversion Hb; subst; [|apply G2; assumption].
      destruct (D5 k n ltac:(assumption)) as (n' & Hn' & <-). specialize (Z5 M (HA M HM)). clear - Z5 Hn'. induction Z5 as [|a i l is Ha _ IHz]; [destruct Hn'|]. destruct Hn' as [[= -> ->]|Hn']; [exact Ha|]. apply IHz. exact Hn'. }
    split; [tauto|]. exists ds. split; [exact D4|]. split; [exact Z2|]. split; [|split; [|split; [exact HG|]]].
    - constructor; [apply (g_terms _ _ _ Z3)| |lia|apply (g_regions _ _ _ Z3)|exact M3|apply (g_imports _ _ _ Z3)].
      intros i Hlt _. rewrite (g_nodes _ _ _ Z3); [|rewrite Hn2; lia|intros H; specialize (Hids i H); lia]. apply lookup_old. exact Hlt.
    - intros n. rewrite Z4. cbn [bound flat_map snd]. rewrite D4. reflexivity.
    - intros M nms HM Hp HGd. apply Z6; [apply HA; exact HM|exact Hp|]. apply HG; assumption.
  Qed.

  (** ** Regions *)
  Lemma insert_region_ok vf lf sf s : inv vf lf sf s -> exists s', insert_region new_region s = Ok (N.of_nat (length (c_regions s)), s') /\ inv vf lf sf s' /\
    c_terms s' = c_terms s /\ c_nodes s' = c_nodes s /\ c_regions s' = c_regions s ++ [new_region] /\ c_imports s' = c_imports s.
  Proof.
    intros Hi. eexists. split; [reflexivity|]. split; [|cbn; auto]. destruct Hi. constructor; cbn -[app]; try assumption; rewrite ?app_length; cbn [length].
    - eapply Forall_impl; [|exact i_lo0]. intros f H; cbn in *; lia.
    - eapply Forall_impl; [|exact i_so0]. intros f H; cbn in *; lia.
  Qed.
  Lemma enter_symbols_ok id vf lf sf s : inv vf lf sf s -> ~ In id (map fst sf) -> (id < N.of_nat (length (c_regions s)))%N -> (N.of_nat (length sf) < 65535)%N ->
    exists s', enter_symbols id s = Ok (tt, s') /\ inv vf lf ((id, []) :: sf) s' /\ c_terms s' = c_terms s /\ c_nodes s' = c_nodes s /\ c_regions s' = c_regions s /\ c_imports s' = c_imports s.
  Proof.
    intros Hi Hn Hlt Hd. unfold enter_symbols. rewrite (i_s _ _ _ _ Hi).
    destruct (s_step_sim sdec (fun _ _ _ => True) sf (SEnter id) (i_si _ _ _ _ Hi) (conj Hn Hd) (fun _ _ _ => I)) as [[[_ [H|(k & m & H)]] _]|(fs' & a & Ha & E & HI')]; [discriminate H|discriminate H|].
    inversion Ha; subst. cbn [st_step] in E. assert (E' : st_enter id (sabs sdec sf) = sabs sdec ((id, []) :: sf)) by congruence. rewrite E'.
    eexists. split; [reflexivity|]. split; [|cbn; auto]. destruct Hi. constructor; cbn; try assumption; [reflexivity|constructor; assumption|].
    intros k n (f & [<-|Hf] & Hk); [destruct Hk|]. apply (i_sd0 k n). exists f. auto.
  Qed.
  Lemma exit_symbols_ok f vf lf sf s : inv vf lf (f :: sf) s ->
    exists s', exit_symbols s = Ok (tt, s') /\ inv vf lf sf s' /\ c_terms s' = c_terms s /\ c_nodes s' = c_nodes s /\ c_regions s' = c_regions s /\ c_imports s' = c_imports s.
  Proof.
    intros Hi. unfold exit_symbols. rewrite (i_s _ _ _ _ Hi).
    destruct (s_step_sim sdec (fun _ _ _ => True) (f :: sf) SExit (i_si _ _ _ _ Hi) I (fun _ _ _ => I)) as [[[H _] _]|(fs' & a & Ha & E & HI')]; [discriminate H|].
    inversion Ha; subst. cbn [st_step] in E. destruct (st_exit _) as [v|]; [|discriminate E]. cbn [option_map] in E. assert (E' : v = sabs sdec fs') by congruence. rewrite E'.
    eexists. split; [reflexivity|]. split; [|cbn; auto]. destruct Hi. constructor; cbn; try assumption; [reflexivity|inversion i_so0; assumption|].
    intros k n (f' & Hf & Hk). apply (i_sd0 k n). exists f'. split; [right; exact Hf|exact Hk].
  Qed.
  Definition inner_links (closed : bool) (id : N) (lf : lframes) : lframes := if closed then (id, [], 0%N) :: lf else lf.
  Lemma enter_links_ok (closed : bool) id vf lf sf s : inv vf lf sf s -> ~ In id (lowners lf) -> (id < N.of_nat (length (c_regions s)))%N ->
    exists s', (if closed then enter_links id else ret tt) s = Ok (tt, s') /\ inv vf (inner_links closed id lf) sf s' /\
      c_terms s' = c_terms s /\ c_nodes s' = c_nodes s /\ c_regions s' = c_regions s /\ c_imports s' = c_imports s.
  Proof.
    intros Hi Hn Hlt. destruct closed; [|exists s; auto 10]. unfold enter_links. rewrite (i_l _ _ _ _ Hi).
    destruct (l_sim sdec lf (LEnter id) (i_li _ _ _ _ Hi)) as [H|[[[_ [H|[k H]]] _]|[_ (fs' & a & Ha & E & HI')]]]; [tauto|discriminate H|discriminate H|].
    inversion Ha; subst. cbn [lt_step] in E. assert (E' : lt_enter id (labs lf) = labs ((id, [], 0%N) :: lf)) by congruence. rewrite E'.
    eexists. split; [reflexivity|]. split; [|cbn; auto]. destruct Hi. constructor; cbn; try assumption; [reflexivity|constructor; assumption].
  Qed.
  Lemma exit_links_ok (closed : bool) id vf lf nl sf s : inv vf (usel (inner_links closed id lf) nl) sf s ->
    exists sc s', (if closed then bind exit_links (fun c => ret (Some c)) else ret None) s = Ok (sc, s') /\ inv vf (usel lf (if closed then [] else nl)) sf s' /\
      c_terms s' = c_terms s /\ c_nodes s' = c_nodes s /\ c_regions s' = c_regions s /\ c_imports s' = c_imports s.
  Proof.
    intros Hi. destruct closed; [|exists None, s; auto 10]. cbn [inner_links usel] in Hi. unfold bind, exit_links. rewrite (i_l _ _ _ _ Hi).
    destruct (l_sim sdec _ LExit (i_li _ _ _ _ Hi)) as [H|[[[H _] _]|[_ (fs' & a & Ha & E & HI')]]]; [exfalso; apply H; exact I|discriminate H|].
    inversion Ha; subst. cbn [lt_step] in E. rewrite E. eexists _, _. split; [reflexivity|]. rewrite usel_nil. split; [|cbn; auto]. destruct Hi. constructor; cbn; try assumption; [reflexivity|]. inversion i_lo0; assumption.
  Qed.
  Lemma set_region_ok id x vf lf sf s : inv vf lf sf s -> (id < N.of_nat (length (c_regions s)))%N ->
    exists s', set_region id x s = Ok (tt, s') /\ inv vf lf sf s' /\ c_terms s' = c_terms s /\ c_nodes s' = c_nodes s /\ c_imports s' = c_imports s /\
      length (c_regions s') = length (c_regions s) /\ lookup (c_regions s') id = Some x /\ (forall j, j <> id -> lookup (c_regions s') j = lookup (c_regions s) j).
  Proof.
    intros Hi Hlt. unfold set_region. destruct (lookup_some _ _ Hlt) as (y & Hy). destruct (list_set_some (N.to_nat id) x (c_regions s) _ Hy) as (l & -> & L1 & L2 & L3).
    assert (L3' : forall j, j <> id -> lookup l j = lookup (c_regions s) j) by (intros j Hj; apply L3; lia).
    eexists. split; [reflexivity|]. cbn. split; [|auto 10]. destruct Hi. constructor; cbn; rewrite ?L1; assumption.
  Qed.

  Lemma region_program closed k src tgt ns ms g s : resolve_region feq closed (Region k src tgt ns ms g) s =
    bind (bind (each (fun t => resolve_term feq t) ms) (fun ms => bind (opt_each (fun t => resolve_term feq t) g) (fun g => ret (ms, g)))) (fun a =>
    bind (insert_region new_region) (fun id => bind (enter_symbols id) (fun _ => bind (if closed then enter_links id else ret tt) (fun _ =>
    bind (bind (each resolve_link src) (fun src => bind (each resolve_link tgt) (fun tgt => ret (src, tgt)))) (fun l =>
    bind (resolve_nodes (fun id n => resolve_node feq id n) ns) (fun ns => bind (if closed then bind exit_links (fun c => ret (Some c)) else ret None) (fun sc =>
    bind exit_symbols (fun _ => bind (set_region id (TRegion k (fst l) (snd l) ns (fst a) (snd a) sc)) (fun _ => ret id))))))))) s.
  Proof.
    change (resolve_region feq closed (Region k src tgt ns ms g) s) with
      (bind (each (fun t => resolve_term feq t) ms) (fun ms => bind (opt_each (fun t => resolve_term feq t) g) (fun g =>
       bind (insert_region new_region) (fun id => bind (enter_symbols id) (fun _ => bind (if closed then enter_links id else ret tt) (fun _ =>
       bind (each resolve_link src) (fun src => bind (each resolve_link tgt) (fun tgt =>
       bind (resolve_nodes (fun id n => resolve_node feq id n) ns) (fun ns => bind (if closed then bind exit_links (fun c => ret (Some c)) else ret None) (fun sc =>
       bind exit_symbols (fun _ => bind (set_region id (TRegion k src tgt ns ms g sc)) (fun _ => ret id))))))))))) s).
    rewrite bind_split. apply bind_ext. intros ms' s1. rewrite bind_split. apply bind_ext. intros g' s2. change (bind (ret (ms', g')) ?f s2) with (f (ms', g') s2). cbn [fst snd].
    apply bind_ext. intros id s3. apply bind_ext. intros _ s4. apply bind_ext. intros _ s5. rewrite bind_split. apply bind_ext. intros src' s6. rewrite bind_split. apply bind_ext. intros tgt' s7. reflexivity.
  Qed.

  Lemma region_step k src tgt ns ms g : Forall node_claim ns -> Forall term_claim ms -> (forall t, g = Some t -> term_claim t) -> region_claim (Region k src tgt ns ms g).
  Proof.
    intros C1 C2 C3 closed vf sf Hf lf s Hi Hl _ _ _. set (d := N.of_nat (length sf)) in *.
    change ((d < 65535)%N /\ (closed = true -> N.of_nat (List.length (src ++ tgt ++ flat_map node_links ns)) < 4294967296)%N /\
      all (fits_term d) ms /\ opt_holds (fits_term d) g /\ all (fits_node (d + 1)) ns) in Hf.
    change (region_links (Region k src tgt ns ms g)) with (src ++ tgt ++ flat_map node_links ns) in *. rewrite app_assoc in *. set (links := (src ++ tgt) ++ flat_map node_links ns) in *.
    destruct Hf as (F1 & F2 & F3 & F4 & F5). rewrite region_program. unfold bind at 1.
    assert (TA : triple0 (bind (each (fun t => resolve_term feq t) ms) (fun ms => bind (opt_each (fun t => resolve_term feq t) g) (fun g => ret (ms, g)))) vf sf
                  (all (scoped_term (vars vf)) ms /\ opt_holds (scoped_term (vars vf)) g) [] (flat_map (open_term (bound sf)) ms ++ opt_list (open_term (bound sf)) g)
                  (fun M nms a => Forall2 (sees_term M) ms (fst a) /\ match g, snd a with Some t, Some i => sees_term M t i | None, None => True | _, _ => False end)).
    { eapply seq; [apply (terms0 ms vf sf C2 F3)| |reflexivity|reflexivity|reflexivity|intros n; reflexivity]. intros ms'. rewrite addv_nil.
      eapply triple_map; [apply (optterm0 g vf sf C3 F4)|intros; exact I|]. intros M nms g' H2 H1. cbn. auto. }
    specialize (TA lf s Hi (or_introl eq_refl) (or_introl eq_refl) (fun w F => match F with end) (NoDup_nil _)).
    assert (HS : scoped_region (vars vf) (Region k src tgt ns ms g) <-> (all (scoped_term (vars vf)) ms /\ opt_holds (scoped_term (vars vf)) g) /\ NoDup (declared_names ns) /\ all (scoped_node (vars vf)) ns) by (cbn [scoped_region]; tauto).
    destruct (bind (each (fun t => resolve_term feq t) ms) _ s) as [[[ms' g'] s1]|e|]; [|tauto|exact TA]. destruct TA as (KA & I1 & G1 & N1 & _ & S1). rewrite addv_nil, usel_nil in *. cbn [fst snd] in *.
    set (id := N.of_nat (length (c_regions s1))).
    destruct (insert_region_ok vf lf sf s1 I1) as (s2 & E2 & I2 & P1 & P2 & P3 & P4). unfold bind at 1. rewrite E2. fold id.
    assert (Hlt2 : (id < N.of_nat (length (c_regions s2)))%N) by (rewrite P3, app_length; cbn; lia).
    assert (Hid : forall f, In f sf -> fst f <> id) by (intros f H E; assert (Q := proj1 (Forall_forall _ _) (i_so _ _ _ _ I1) f H); cbn in Q; lia).
    destruct (enter_symbols_ok id vf lf sf s2 I2) as (s3 & E3 & I3 & P5 & P6 & P7 & P8); [intros H; apply in_map_iff in H as (f & E & H); exact (Hid f H E)|exact Hlt2|exact F1|]. unfold bind at 1. rewrite E3.
    destruct (enter_links_ok closed id vf lf _ s3 I3) as (s4 & E4 & I4 & P9 & P10 & P11 & P12).
    { intros H. unfold lowners in H. apply in_map_iff in H as (f & E & H). assert (Q := proj1 (Forall_forall _ _) (i_lo _ _ _ _ I1) f H). cbn in Q. lia. }
    { rewrite P7. exact Hlt2. }
    unfold bind at 1. rewrite E4. set (lf1 := inner_links closed id lf) in *.
    assert (Hl1 : rooml lf1 links).
    { unfold lf1, inner_links. destruct closed; [|exact Hl]. right. eexists _, _, _, _. split; [reflexivity|]. specialize (F2 eq_refl). rewrite N.add_0_l. exact F2. }
    apply rooml_app in Hl1 as [Hl1 Hl2].
    assert (TL : triple0 (bind (each resolve_link src) (fun src => bind (each resolve_link tgt) (fun tgt => ret (src, tgt)))) vf ((id, []) :: sf) True (src ++ tgt) []
                  (fun M ns l => map view_link (fst l) = map (at_names ns) src /\ map view_link (snd l) = map (at_names ns) tgt)).
    { eapply seq; [apply links0| |split; [intros _; exact I|intros _; exact (conj I I)]|reflexivity|reflexivity|intros n; apply (iff_refl (In n ([] ++ [])))]. intros i1. rewrite addv_nil.
      eapply triple_map; [apply links0|intros; exact I|]. intros M nms i2 H2 H1. cbn. auto. }
    specialize (TL lf1 s4 I4 Hl1 (or_introl eq_refl) (fun w F => match F with end) (NoDup_nil _)).
    unfold bind at 1. destruct (bind (each resolve_link src) _ s4) as [[l s5]|e|]; [|tauto|exact TL]. destruct TL as (_ & I5 & G5 & N5 & _ & S5). rewrite addv_nil in *.
    assert (TN := nodes0 ns C1 id vf sf _ s5 F5 I5 Hl2). unfold bind at 1. destruct (resolve_nodes _ ns s5) as [[ids s6]|e|]; [|tauto|exact TN].
    destruct TN as (KN & ds & D1 & I6 & G6 & N6 & _ & S6). rewrite usel_app in *. fold links in I6, S6.
    destruct (exit_links_ok closed id vf lf links _ s6 I6) as (sc & s7 & E7 & I7 & Q1 & Q2 & Q3 & Q4). unfold bind at 1. rewrite E7.
    destruct (exit_symbols_ok _ vf _ sf s7 I7) as (s8 & E8 & I8 & Q5 & Q6 & Q7 & Q8). unfold bind at 1. rewrite E8.
    assert (L1 := g_nlen _ _ _ G1). assert (L5 := g_nlen _ _ _ G5). assert (L6 := g_nlen _ _ _ G6). assert (M1 := g_rlen _ _ _ G1). assert (M5 := g_rlen _ _ _ G5). assert (M6 := g_rlen _ _ _ G6).
    assert (Hr4 : c_regions s4 = c_regions s1 ++ [new_region]) by congruence. assert (Hn4 : c_nodes s4 = c_nodes s1) by congruence. assert (Hi4 : c_imports s4 = c_imports s1) by congruence. assert (Ht4 : c_terms s4 = c_terms s1) by congruence.
    assert (Hr8 : c_regions s8 = c_regions s6) by congruence. assert (Hn8 : c_nodes s8 = c_nodes s6) by congruence. assert (Hi8 : c_imports s8 = c_imports s6) by congruence. assert (Ht8 : c_terms s8 = c_terms s6) by congruence.
    assert (Hrl : length (c_regions s4) = S (length (c_regions s1))) by (rewrite Hr4, app_length; cbn; lia).
    assert (Hlt8 : (id < N.of_nat (length (c_regions s8)))%N) by (rewrite Hr8; unfold id; lia).
    destruct (set_region_ok id (TRegion k (fst l) (snd l) ids ms' g' sc) vf _ sf s8 I8 Hlt8) as (s9 & E9 & I9 & R1 & R2 & R3 & R4 & R5 & R6). unfold bind at 1. rewrite E9. unfold ret.
    assert (Ht46 : prefix (c_terms s4) (c_terms s6)) by (eapply prefix_trans; [apply (g_terms _ _ _ G5)|apply (g_terms _ _ _ G6)]).
    assert (Hi46 : prefix (c_imports s4) (c_imports s6)) by (eapply prefix_trans; [apply (g_imports _ _ _ G5)|apply (g_imports _ _ _ G6)]).
    assert (Hn46 : forall i, (i < N.of_nat (length (c_nodes s4)))%N -> lookup (c_nodes s6) i = lookup (c_nodes s4) i).
    { intros i Hlt. rewrite (g_nodes _ _ _ G6), (g_nodes _ _ _ G5); try tauto; lia. }
    assert (Hr46 : forall i, (i < N.of_nat (length (c_regions s4)))%N -> lookup (c_regions s6) i = lookup (c_regions s4) i).
    { intros i Hlt. rewrite (g_regions _ _ _ G6), (g_regions _ _ _ G5); [reflexivity|lia|lia]. }
    assert (Hr14 : forall i, (i < N.of_nat (length (c_regions s1)))%N -> lookup (c_regions s4) i = lookup (c_regions s1) i) by (intros i Hlt; rewrite Hr4; apply lookup_old; exact Hlt).
    assert (G : grows [] s s9).
    { constructor.
      - rewrite R1, Ht8. eapply prefix_trans; [apply (g_terms _ _ _ G1)|]. rewrite <- Ht4. exact Ht46.
      - intros i Hlt _. rewrite R2, Hn8, Hn46, Hn4, (g_nodes _ _ _ G1); [reflexivity|exact Hlt|intros []|rewrite Hn4; lia].
      - rewrite R2, Hn8. rewrite Hn4 in *. lia.
      - intros i Hlt. rewrite R6, Hr8, Hr46, Hr14, (g_regions _ _ _ G1); [reflexivity|exact Hlt|lia|lia|unfold id; lia].
      - rewrite R4, Hr8. lia.
      - rewrite R3, Hi8. eapply prefix_trans; [apply (g_imports _ _ _ G1)|]. rewrite <- Hi4. exact Hi46. }
    split; [rewrite HS; exact (conj KA KN)|]. split; [exact I9|]. split; [exact G|]. split; [|split; [intros; exact I|]].
    - intros n. unfold names in *. rewrite R3, Hi8, N6, N5, Hi4, N1.
      change (open_region (bound sf) (Region k src tgt ns ms g)) with (flat_map (open_term (bound sf)) ms ++ opt_list (open_term (bound sf)) g ++ flat_map (open_node (declared_names ns ++ bound sf)) ns).
      rewrite !in_app_iff. cbn. tauto.
    - intros M nms HM Hp HG.
      assert (Hx : lookup (tm_regions M) id = Some (TRegion k (fst l) (snd l) ids ms' g' sc)).
      { rewrite (a_regions _ _ _ _ HM id); [exact R5|]. rewrite R4, Hr8. unfold id. lia. }
      assert (HM6 : agree M [] s5 s6).
      { constructor.
        - rewrite <- Ht8, <- R1. apply (a_terms _ _ _ _ HM).
        - intros i [Hlt|[]]. rewrite (a_nodes _ _ _ _ HM i) by (left; rewrite R2, Hn8; rewrite Hn4 in *; lia). rewrite R2, Hn8. reflexivity.
        - intros i Hlt. rewrite (a_regions _ _ _ _ HM i) by (rewrite R4, Hr8; lia). rewrite R6, Hr8; [reflexivity|unfold id; lia]. }
      assert (HM5 : agree M [] s4 s5).
      { constructor.
        - eapply prefix_trans; [apply (g_terms _ _ _ G6)|apply (a_terms _ _ _ _ HM6)].
        - intros i [Hlt|[]]. rewrite (a_nodes _ _ _ _ HM i) by (left; rewrite R2, Hn8; rewrite Hn4 in *; lia). rewrite R2, Hn8. apply (g_nodes _ _ _ G6); [lia|intros []].
        - intros i Hlt. rewrite (a_regions _ _ _ _ HM i) by (rewrite R4, Hr8; lia). rewrite R6, Hr8; [apply (g_regions _ _ _ G6); lia|unfold id; lia]. }
      assert (HM1 : agree M [] s s1).
      { constructor.
        - rewrite <- Ht4. eapply prefix_trans; [exact Ht46|apply (a_terms _ _ _ _ HM6)].
        - intros i [Hlt|[]]. rewrite (a_nodes _ _ _ _ HM i) by (left; rewrite R2, Hn8; rewrite Hn4 in *; lia). rewrite R2, Hn8, Hn46, Hn4; [reflexivity|rewrite Hn4; lia].
        - intros i Hlt. rewrite (a_regions _ _ _ _ HM i) by (rewrite R4, Hr8; lia). rewrite R6, Hr8, Hr46, Hr14; [reflexivity|lia|lia|unfold id; lia]. }
      rewrite R3, Hi8 in HG.
      assert (HG1 : good M vf sf (c_imports s1)) by (eapply good_less with (nv := []); [rewrite addv_nil; exact HG|rewrite <- Hi4; exact Hi46]).
      destruct (S1 M (topl lf) HM1 (prefix_refl _) HG1) as [B1 B2].
      set (nms' := if closed then distinct_after [] links else nms).
      assert (Hp' : prefix (topl (usel lf1 links)) nms').
      { unfold nms', lf1, inner_links in *. destruct closed; [cbn; apply prefix_refl|exact Hp]. }
      assert (B3 := S6 M nms' HM6 Hp' HG).
      destruct (S5 M nms' HM5) as [V1 V2].
      { eapply prefix_trans; [apply topl_prefix|]. rewrite usel_app. exact Hp'. }
      { destruct HG1 as [X1 X2 X3]. constructor; [exact X1| |].
        - intros k0 n Hb. inversion Hb; subst; [match goal with H : In _ [] |- _ => destruct H end|]. apply X2. assumption.
        - intros k0 n Hin. apply (d_imports _ _ _ _ HG). destruct (g_imports _ _ _ G6) as [z ->]. apply in_or_app. left. exact Hin. }
      destruct (see_terms _ _ _ B1) as (ms2 & [k2 Hk2] & Hms).
      destruct (shows_list (fun n => view_node M n) (floats_node canon) _ ns ids B3) as (ns2 & [k3 Hk3] & Hns).
      destruct (shows_opt (fun n => view_term M n) (floats_term canon) (fun t => floats_term canon (numbered_term t)) g g' B2) as (g2 & [k4 Hk4] & Hg).
      exists (Region k (map (at_names nms') src) (map (at_names nms') tgt) ns2 ms2 g2). split.
      + exists (S (Nat.max k2 (Nat.max k3 k4))). intros [|n] Hn; [lia|]. cbn [view_region]. rewrite Hx. cbn [tr_kind tr_meta tr_sig tr_children tr_sources tr_targets].
        rewrite Hk2, Hk3, Hk4, V1, V2 by lia. reflexivity.
      + set (f := match (if closed then None else Some (at_names nms)) with Some f => f | None => number_name (src ++ tgt ++ flat_map node_links ns) end).
        assert (Hff : f = at_names nms') by (unfold f, nms', links; destruct closed; [rewrite <- app_assoc|]; reflexivity).
        change (Region k (map (at_names nms') src) (map (at_names nms') tgt) (map (floats_node canon) ns2) (map (floats_term canon) ms2) (option_map (floats_term canon) g2) =
                Region k (map f src) (map f tgt) (map (floats_node canon) (map (numbered_node f) ns)) (map (floats_term canon) (map numbered_term ms)) (option_map (floats_term canon) (option_map numbered_term g))).
        rewrite Hff, Hms, Hns, Hg, (map_map (numbered_node (at_names nms'))). f_equal. destruct g; reflexivity.
  Qed.

  (** ** All trees *)
  Fixpoint term_resolves (t : term) : term_claim t
  with region_resolves (r : region) : region_claim r
  with node_resolves (n : node) : node_claim n.
  Proof.
    - apply term_step. destruct t as [|n|n ts|ps|l|ps|r]; try exact I.
      + induction ts as [|t ts IH]; constructor; [apply term_resolves|exact IH].
      + induction ps as [|p ps IH]; constructor; [destruct p; apply term_resolves|exact IH].
      + induction ps as [|p ps IH]; constructor; [destruct p; apply term_resolves|exact IH].
      + apply region_resolves.
    - destruct r as [k src tgt ns ms g]. apply region_step.
      + induction ns as [|n ns IH]; constructor; [apply node_resolves|exact IH].
      + induction ms as [|t ms IH]; constructor; [apply term_resolves|exact IH].
      + destruct g as [t|]; intros t' E; [|discriminate E]. injection E as <-. apply term_resolves.
    - destruct n as [o ins outs rs ms g].
      apply node_step.
      + destruct o as [| | | |x|x|t|x t|x| | |x|x|n]; try exact I; try apply term_resolves;
          try (destruct x as [v n ps ws y]); [ | | split; [|apply term_resolves] | | | ];
          (split; [|split]; cbn;
           [induction ps as [|p ps IH]; constructor; [apply term_resolves|exact IH]|induction ws as [|t' ws IH]; constructor; [apply term_resolves|exact IH]|apply term_resolves]).
      + induction rs as [|r rs IH]; constructor; [apply region_resolves|exact IH].
      + induction ms as [|t ms IH]; constructor; [apply term_resolves|exact IH].
      + destruct g as [t|]; intros t' E; [|discriminate E]. injection E as <-. apply term_resolves.
  Qed.

  Definition import_node (n : str) : node := Node (Import n) [] [] [] [] None.
  Lemma module_resolves (m : @module F) : fits_module m ->
    match resolve feq drain m with
    | Ok t => scoped_module m /\ exists ns ms im,
        shows (as_ast t) (Region ModuleRegion [] [] (ns ++ map import_node im) ms None) /\
        floats_region canon (Region ModuleRegion [] [] ns ms None) = floats_region canon (numbered_module m) /\ NoDup im /\ (forall n, In n im <-> In n (open_module m))
    | Err _ => ~ scoped_module m
    | Crash => False
    end.
  Proof.
    destruct m as [k src tgt ns ms g]. intros (F1 & F2 & F3).
    change (scoped_module (Region k src tgt ns ms g)) with (NoDup (declared_names ns) /\ all (scoped_node []) ns /\ all (scoped_term []) ms).
    change (open_module (Region k src tgt ns ms g)) with (flat_map (open_node (declared_names ns)) ns ++ flat_map (open_term (declared_names ns)) ms).
    set (links := flat_map node_links ns) in *. unfold resolve, resolve_module.
    assert (I0 : inv [] [] [] start).
    { constructor; try reflexivity; try apply Forall_nil; try apply NoDup_nil.
      - split; constructor.
      - split; constructor.
      - split; [constructor|]. split; [reflexivity|]. split; constructor.
      - intros k0 n (f & [] & _). }
    destruct (insert_region_ok [] [] [] start I0) as (s2 & E2 & I2 & P1 & P2 & P3 & P4). unfold bind at 1. rewrite E2.
    change (N.of_nat (length (c_regions start))) with 0%N.
    assert (Hlt2 : (0 < N.of_nat (length (c_regions s2)))%N) by (rewrite P3; cbn; lia).
    destruct (enter_symbols_ok 0%N [] [] [] s2 I2) as (s3 & E3 & I3 & P5 & P6 & P7 & P8); [intros []|exact Hlt2|cbn; lia|]. unfold bind at 1. rewrite E3.
    destruct (enter_links_ok true 0%N [] [] _ s3 I3) as (s4 & E4 & I4 & P9 & P10 & P11 & P12); [intros []|rewrite P7; exact Hlt2|]. unfold bind at 1. rewrite E4. cbn [inner_links] in I4.
    assert (Hl : rooml [(0%N, [], 0%N)] links) by (right; eexists _, _, _, _; split; [reflexivity|]; rewrite N.add_0_l; exact F1).
    assert (CN : Forall node_claim ns) by (apply Forall_forall; intros n _; apply node_resolves).
    assert (CT : Forall term_claim ms) by (apply Forall_forall; intros t _; apply term_resolves).
    assert (TN := nodes0 ns CN 0%N [] [] [(0%N, [], 0%N)] s4 F2 I4 Hl). unfold bind at 1. destruct (resolve_nodes _ ns s4) as [[ids s5]|e|]; [|cbn [vars] in TN; tauto|exact TN].
    destruct TN as (KN & ds & D1 & I5 & G5 & N5 & HD & S5). fold links in I5, S5.
    assert (TT := terms0 ms [] [(0%N, ds)] CT F3 _ s5 I5 (or_introl eq_refl) (or_introl eq_refl) (fun w F => match F with end) (NoDup_nil _)).
    unfold bind at 1. destruct (each _ ms s5) as [[ms' s6]|e|]; [|cbn [vars] in TT; tauto|exact TT]. destruct TT as (KT & I6 & G6 & N6 & _ & S6). rewrite usel_nil in *. cbn [addv] in *.
    destruct (exit_links_ok true 0%N [] [] links _ s6 I6) as (sc & s7 & E7 & I7 & Q1 & Q2 & Q3 & Q4). unfold bind at 1. unfold bind in E7. destruct (exit_links s6) as [[sc' s7']|e|]; [|discriminate E7|discriminate E7].
    cbn in E7. injection E7 as Esc Es7. subst sc s7'. cbn [usel] in I7.
    destruct (exit_symbols_ok _ [] _ [] s7 I7) as (s8 & E8 & I8 & Q5 & Q6 & Q7 & Q8). unfold bind at 1. rewrite E8. unfold bind at 1.
    set (im := map snd (drain (c_imports s8))).
    set (s8' := St _ _ _ _ _ _ _ _).
    assert (I8' : inv [] [] [] s8') by (destruct I8; constructor; cbn; try assumption; constructor).
    assert (M5 := g_rlen _ _ _ G5). assert (M6 := g_rlen _ _ _ G6).
    assert (Hr4 : c_regions s4 = [new_region]) by (rewrite P11, P7, P3; reflexivity).
    assert (Hr8 : c_regions s8' = c_regions s6) by (cbn; congruence). assert (Hn8 : c_nodes s8' = c_nodes s6) by (cbn; congruence). assert (Ht8 : c_terms s8' = c_terms s6) by (cbn; congruence). assert (Hi8 : c_imports s8 = c_imports s6) by congruence.
    destruct (set_region_ok 0%N (TRegion ModuleRegion [] [] (ids ++ im) ms' None (Some sc')) [] _ [] s8' I8') as (s9 & E9 & I9 & R1 & R2 & R3 & R4 & R5 & R6); [rewrite Hr8; rewrite Hr4 in M5; cbn in M5; lia|].
    unfold bind at 1. rewrite E9. unfold ret. cbn [vars] in KN, KT. split; [tauto|].
    set (M := TModule _ _ _ _).
    assert (HM6 : agree M [] s5 s6).
    { constructor; cbn.
      - rewrite R1, Ht8. apply prefix_refl.
      - intros i _. rewrite R2, Hn8. reflexivity.
      - intros i Hlt. rewrite R6, Hr8; [reflexivity|]. rewrite Hr4 in M5. cbn in M5. lia. }
    assert (HM5 : agree M [] s4 s5).
    { constructor; cbn.
      - rewrite R1, Ht8. apply (g_terms _ _ _ G6).
      - intros i [Hlt|[]]. rewrite R2, Hn8. apply (g_nodes _ _ _ G6); [lia|intros []].
      - intros i Hlt. rewrite Hr4 in Hlt. cbn [length] in Hlt. rewrite R6, Hr8; [apply (g_regions _ _ _ G6); lia|lia]. }
    assert (Hview : forall e, In e (c_imports s6) -> lookup (tm_nodes M) (snd e) = Some (TNode (Import (fst e)) [] [] [] [] None)).
    { intros e He. cbn. rewrite R2, Hn8. exact (proj1 (Forall_forall _ _) (i_in _ _ _ _ I6) e He). }
    assert (HG6 : good M [] [] (c_imports s6)).
    { constructor; [intros n ks vf' H; discriminate H|intros k0 n H; inversion H|]. intros k0 n H. unfold view_symbol_name. assert (Hv := Hview _ H). cbn [fst snd] in Hv. rewrite Hv. reflexivity. }
    assert (HG5 : good M [] [] (c_imports s5)) by (eapply good_less with (nv := []); [exact HG6|apply (g_imports _ _ _ G6)]).
    assert (B1 := S5 M _ HM5 (prefix_refl _) HG5). assert (B2 := S6 M _ HM6 (prefix_refl _) (HD M _ HM5 HG6)). cbn [topl usel] in B1.
    destruct (see_terms _ _ _ B2) as (ms2 & [k2 Hk2] & Hms).
    destruct (shows_list (fun n => view_node M n) (floats_node canon) _ ns ids B1) as (ns2 & [k3 Hk3] & Hns).
    exists ns2, ms2, (map fst (drain (c_imports s6))). split; [|split; [|split]].
    - assert (Him : forall n, 1 <= n -> all_some (view_node M n) im = Some (map import_node (map fst (drain (c_imports s6))))).
      { intros [|n] Hn; [lia|]. unfold im. rewrite Hi8. assert (Hin : forall e, In e (drain (c_imports s6)) -> In e (c_imports s6)) by (intros e; apply Permutation_in; apply drain_perm).
        induction (drain (c_imports s6)) as [|e l IHl]; [reflexivity|]. cbn [map all_some]. rewrite (IHl (fun e' H => Hin e' (or_intror H))).
        cbn [view_node]. rewrite (Hview e (Hin e (or_introl eq_refl))). reflexivity. }
      assert (Happ : forall n l1 l2 a b, all_some (view_node M n) l1 = Some a -> all_some (view_node M n) l2 = Some b -> all_some (view_node M n) (l1 ++ l2) = Some (a ++ b)).
      { clear. intros n. induction l1 as [|x l1 IH]; intros l2 a b H1 H2; cbn [all_some app] in *; [injection H1 as <-; exact H2|].
        destruct (view_node M n x) as [y|]; [|discriminate H1]. destruct (all_some (view_node M n) l1) as [a'|]; [|discriminate H1]. injection H1 as <-. rewrite (IH l2 a' b eq_refl H2). reflexivity. }
      exists (S (Nat.max 1 (Nat.max k2 k3))). intros [|n] Hn; [lia|]. 
      change (as_ast M (S n)) with (match lookup (c_regions s9) 0%N with
        | None => None
        | Some r => match all_some (view_term M n) (tr_meta r), all_some (view_node M n) (tr_children r), opt_some (view_term M n) (tr_sig r) with
                    | Some ms, Some ns, Some g => Some (Region (tr_kind r) (map view_link (tr_sources r)) (map view_link (tr_targets r)) ns ms g)
                    | _, _, _ => None
                    end
        end).
      rewrite R5. cbn [tr_kind tr_meta tr_sig tr_children tr_sources tr_targets]. rewrite Hk2 by lia. rewrite (Happ n ids im ns2 _ (Hk3 n ltac:(lia)) (Him n ltac:(lia))). reflexivity.
    - change (Region ModuleRegion [] [] (map (floats_node canon) ns2) (map (floats_term canon) ms2) None =
              Region ModuleRegion [] [] (map (floats_node canon) (map (numbered_node (number_name links)) ns)) (map (floats_term canon) (map numbered_term ms)) None).
      rewrite Hns, Hms, (map_map (numbered_node (number_name links))). reflexivity.
    - eapply Permutation_NoDup; [apply Permutation_map, Permutation_sym, drain_perm|]. apply (i_im _ _ _ _ I6).
    - intros n. assert (E : In n (map fst (drain (c_imports s6))) <-> In n (names s6)).
      { split; apply Permutation_in; [|apply Permutation_sym]; apply Permutation_map, drain_perm. }
      rewrite E, N6, N5. unfold names. rewrite P12, P8, P4. cbn [bound flat_map snd map app]. rewrite !app_nil_r, D1, in_app_iff. cbn. tauto.
  Qed.
End Proofs.
