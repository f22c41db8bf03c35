(** Placing the inserted nodes in the hierarchy. *)
From Coq Require Import List Bool NArith Arith Lia Permutation.
From Verif Require Import GraphModel GraphSpec GraphProofs GraphRemove GraphBfs InsertModel InsertSpec InsertProofs.
Import ListNotations.

Lemma lookup_app : forall A (a b : list (N * A)) n, lookup (a ++ b) n = match lookup a n with Some v => Some v | None => lookup b n end.
Proof.
  intros A a b n. induction a as [|[k v] a IH]; [reflexivity|]. cbn [app lookup]. destruct (N.eqb k n); [reflexivity|exact IH].
Qed.

(** If every node reaches a top by following parents, there are no cycles. *)
Lemma reach_no_cycle : forall (T : N -> option N) r n p, T r = None -> up T n r -> T n = Some p -> ~ up T p n.
Proof.
  intros T r n p Tr U E V. apply up_hops in U, V. destruct U as (i & U), V as (j & V).
  assert (X : hops T (S j + i) n = Some r).
  { rewrite (hops_add T (S j) i n n); [exact U|]. cbn [hops]. now rewrite E. }
  pose proof (hops_top_unique T r Tr _ _ _ U X). lia.
Qed.

Section Tree.
  Context {O M : Type}.
  Notation hugr := (hugr O M).

  (** [h] is [h1] with more nodes attached, in the order of the list. *)
  Definition attached (h1 : hugr) (pl : list (N * N)) (h : hugr) : Prop :=
    exists par kids, h = set_tree h1 par kids /\
      (forall y, par y = match lookup pl y with Some p => Some p | None => h_parent h1 y end) /\
      (forall x, kids x = h_kids h1 x ++ map fst (filter (fun e => N.eqb (snd e) x) pl)).

  Lemma attach_start : forall h1 : hugr, attached h1 [] h1.
  Proof.
    intros h1. exists (h_parent h1), (h_kids h1). split; [destruct h1; reflexivity|]. split; [reflexivity|].
    intros x. cbn. now rewrite app_nil_r.
  Qed.

  Lemma attach_step : forall (h1 h : hugr) pl n p (T : N -> option N) r, attached h1 pl h ->
    In n (h_nodes h1) -> In p (h_nodes h1) ->
    lookup pl n = None -> h_parent h1 n = None ->
    T r = None -> up T n r -> T n = Some p -> (forall y q, h_parent h y = Some q -> T y = Some q) ->
    exists h', set_parent h n p = Some h' /\ attached h1 (pl ++ [(n, p)]) h'.
  Proof.
    intros h1 h pl n p T r (par & kids & -> & Hp & Hk) In_ Ip Ln Pn Tr Ur Tn Ext. cbn [set_tree h_parent] in Ext.
    assert (Np : par n = None) by (rewrite Hp, Ln; exact Pn).
    unfold set_parent, contains, detach, push_child. cbn [set_tree h_nodes h_parent h_kids].
    rewrite (proj2 (memN_iff p (h_nodes h1)) Ip), (proj2 (memN_iff n (h_nodes h1)) In_). cbn [andb]. rewrite Np.
    cbn [set_tree h_nodes h_parent h_kids]. rewrite Np.
    destruct (climbs par (length (h_nodes h1)) p n) eqn:C.
    { exfalso. apply climbs_iff in C. destruct C as (i & _ & C).
      apply (reach_no_cycle T r n p Tr Ur Tn). apply (up_mono par); [exact Ext|]. apply up_hops. eauto. }
    eexists. split; [reflexivity|]. eexists _, _. split; [reflexivity|]. split.
    - intros y. rewrite lookup_app. cbn [lookup]. unfold upd. rewrite (N.eqb_sym n y). destruct (N.eqb_spec y n) as [->|].
      + now rewrite Ln.
      + rewrite Hp. now destruct (lookup pl y).
    - intros x. rewrite filter_app, map_app. cbn [filter snd]. unfold upd. rewrite (N.eqb_sym p x).
      destruct (N.eqb_spec x p) as [->|]; rewrite Hk; cbn [map fst].
      + now rewrite <- app_assoc.
      + now rewrite app_nil_r.
  Qed.
End Tree.

Section Place.
  Context {O M : Type}.
  Notation hugr := (hugr O M).
  Variables (h0 other h1 : hugr) (m : list (N * N)) (nodes : list N) (roots : list (N * N)).
  Hypothesis W0 : wf h0.
  Hypothesis W : wf other.
  Hypothesis L : loaded h0 other m h1.
  Hypothesis Nodes : NoDup nodes.
  Hypothesis Keys : forall x, In x nodes <-> In x (map fst m).
  Hypothesis Live : incl nodes (h_nodes other).
  Hypothesis Roots : NoDup (map fst roots).
  Hypothesis RootsIn : incl (map fst roots) nodes.
  Hypothesis RootsTo : forall r p, In (r, p) roots -> In p (h_nodes h0).
  Hypothesis Closed : forall x, In x nodes -> is_root roots x = false -> exists p, h_parent other x = Some p /\ In p nodes.

  Let f := image_of m.
  Let up_of (x : N) : N := match h_parent other x with Some p => f p | None => f x end.
  Let root_edges := map (fun rp => (f (fst rp), snd rp)) roots.
  Let rest (l : list N) := map (fun x => (f x, up_of x)) (filter (fun x => negb (is_root roots x)) l).
  Let edges := root_edges ++ rest nodes.
  Let T (y : N) : option N := match lookup edges y with Some p => Some p | None => h_parent h0 y end.

  Lemma f_lookup : forall x, In x nodes -> lookup m x = Some (f x).
  Proof.
    intros x I. apply Keys in I. destruct (lookup_ex _ m x I) as (v & E). unfold f, image_of. now rewrite E.
  Qed.
  Lemma f_fresh : forall x, In x nodes -> ~ In (f x) (h_nodes h0).
  Proof.
    intros x I. apply f_lookup in I. apply lookup_In in I. apply (ld_fresh _ _ _ _ L). apply in_map_iff. exists (x, f x). auto.
  Qed.
  Lemma f_live : forall x, In x nodes -> In (f x) (h_nodes h1).
  Proof.
    intros x I. apply f_lookup in I. apply lookup_In in I. rewrite (ld_nodes _ _ _ _ L). apply in_app_iff. left.
    apply in_map_iff. exists (x, f x). auto.
  Qed.
  Lemma f_inj : forall x y, In x nodes -> In y nodes -> f x = f y -> x = y.
  Proof.
    intros x y Ix Iy E. apply f_lookup in Ix, Iy. rewrite <- E in Iy. exact (lookup_inj m (ld_vals _ _ _ _ L) _ _ _ Ix Iy).
  Qed.

  Lemma nodup_map_f : forall l, NoDup l -> incl l nodes -> NoDup (map f l).
  Proof.
    intros l D. induction D as [|x l Nx D IH]; intros I; [constructor|]. cbn [map]. constructor.
    - intros X. apply in_map_iff in X. destruct X as (y & E & Y). apply f_inj in E; [|apply I; now right|apply I; now left].
      subst. contradiction.
    - apply IH. intros y Y. apply I. now right.
  Qed.

  Lemma edges_keys : map fst edges = map f (map fst roots ++ filter (fun x => negb (is_root roots x)) nodes).
  Proof.
    unfold edges, root_edges, rest. rewrite map_app, !map_map, map_app, map_map. reflexivity.
  Qed.
  Lemma all_nodes : NoDup (map fst roots ++ filter (fun x => negb (is_root roots x)) nodes) /\
    forall x, In x (map fst roots ++ filter (fun x => negb (is_root roots x)) nodes) <-> In x nodes.
  Proof.
    assert (D : forall a b : list N, NoDup a -> NoDup b -> (forall x, In x a -> ~ In x b) -> NoDup (a ++ b)).
    { induction a as [|x a IH]; intros b Da Db X; [exact Db|]. inversion Da; subst. cbn [app]. constructor.
      - rewrite in_app_iff. intros [I|I]; [contradiction|]. apply (X x (or_introl eq_refl) I).
      - apply IH; auto. intros y Y. apply X. now right. }
    split.
    - apply D; [exact Roots|now apply NoDup_filter|]. intros x I J. apply filter_In in J. destruct J as [_ J].
      unfold is_root in J. now rewrite (proj2 (memN_iff x (map fst roots)) I) in J.
    - intros x. rewrite in_app_iff, filter_In. split; [intros [I|[I _]]; [now apply RootsIn|exact I]|].
      intros I. destruct (is_root roots x) eqn:E; [left; now apply memN_iff|right; auto].
  Qed.
  Lemma edges_nodup : NoDup (map fst edges).
  Proof.
    rewrite edges_keys. destruct all_nodes as [D I]. apply nodup_map_f; [exact D|]. intros x X. now apply I.
  Qed.
  Lemma edges_fresh : forall y, In y (map fst edges) -> ~ In y (h_nodes h0) /\ In y (h_nodes h1).
  Proof.
    intros y I. rewrite edges_keys in I. apply in_map_iff in I. destruct I as (x & <- & I). apply all_nodes in I.
    split; [now apply f_fresh|now apply f_live].
  Qed.

  Lemma T_root : forall r p, In (r, p) roots -> T (f r) = Some p.
  Proof.
    intros r p I. unfold T. rewrite (lookup_nodup _ edges (f r) p edges_nodup); [reflexivity|].
    apply in_app_iff. left. apply in_map_iff. exists (r, p). auto.
  Qed.
  Lemma T_rest : forall x q, In x nodes -> is_root roots x = false -> h_parent other x = Some q -> T (f x) = Some (f q).
  Proof.
    intros x q I R E. unfold T. rewrite (lookup_nodup _ edges (f x) (f q) edges_nodup); [reflexivity|].
    apply in_app_iff. right. unfold rest. apply in_map_iff. exists x. split; [unfold up_of; now rewrite E|].
    apply filter_In. now rewrite R.
  Qed.
  Lemma T_host : forall y, In y (h_nodes h0) -> T y = h_parent h0 y.
  Proof.
    intros y I. unfold T. destruct (lookup edges y) eqn:E; [|reflexivity]. exfalso. apply lookup_In in E.
    apply (edges_fresh y); [|exact I]. apply in_map_iff. exists (y, n). auto.
  Qed.
  Lemma T_ext : forall y q, h_parent h0 y = Some q -> T y = Some q.
  Proof.
    intros y q E. rewrite T_host; [exact E|]. destruct (in_dec N.eq_dec y (h_nodes h0)) as [I|N0]; [exact I|].
    apply (wf_unused h0 W0) in N0. destruct N0 as [N0 _]. congruence.
  Qed.
  Lemma T_top : T (h_root h0) = None.
  Proof. rewrite T_host; [apply (wf_top h0 W0)|apply (wf_root h0 W0)]. Qed.

  Lemma T_reach : forall y, In y (h_nodes h1) -> up T y (h_root h0).
  Proof.
    assert (Host : forall y, In y (h_nodes h0) -> up T y (h_root h0)).
    { intros y I. apply (up_mono (h_parent h0)); [exact T_ext|]. now apply (wf_reach h0 W0). }
    assert (Rt : forall x, In x nodes -> is_root roots x = true -> up T (f x) (h_root h0)).
    { intros x I E. apply memN_iff in E. apply in_map_iff in E. destruct E as ([r p] & E & J). cbn [fst] in E. subst r.
      apply up_next with p; [now apply T_root|]. apply Host. eauto. }
    assert (New : forall x a, up (h_parent other) x a -> a = h_root other -> In x nodes -> up T (f x) (h_root h0)).
    { intros x a U. induction U as [x|x q a E U IH]; intros Ea I.
      - destruct (is_root roots x) eqn:R; [now apply Rt|]. destruct (Closed x I R) as (p & E & _). subst.
        rewrite (wf_top other W) in E. discriminate.
      - destruct (is_root roots x) eqn:R; [now apply Rt|]. destruct (Closed x I R) as (p & E' & Ip).
        rewrite E in E'. injection E' as <-. apply up_next with (f q); [now apply T_rest|]. auto. }
    intros y I. rewrite (ld_nodes _ _ _ _ L) in I. apply in_app_iff in I. destruct I as [I|I]; [|now apply Host].
    apply in_map_iff in I. destruct I as ([x v] & Ev & I). cbn [snd] in Ev. subst v.
    assert (Ix : In x nodes) by (apply Keys; apply in_map_iff; exists (x, y); auto).
    assert (Ey : f x = y).
    { unfold f, image_of. now rewrite (lookup_nodup _ m x y (ld_keys _ _ _ _ L) I). }
    rewrite <- Ey. apply (New x (h_root other)); auto. apply (wf_reach other W). now apply Live.
  Qed.

  Lemma par_ext : forall pl rest' h, attached h1 pl h -> edges = pl ++ rest' -> forall y q, h_parent h y = Some q -> T y = Some q.
  Proof.
    intros pl rest' h (par & kids & -> & Hp & _) E y q. cbn [set_tree h_parent]. rewrite Hp.
    destruct (lookup pl y) as [v|] eqn:X.
    - intros Q. unfold T. rewrite E, lookup_app, X. exact Q.
    - rewrite (ld_parent _ _ _ _ L). apply T_ext.
  Qed.

  Lemma place_one : forall pl x p rest' h, attached h1 pl h -> edges = pl ++ (f x, p) :: rest' -> In x nodes -> In p (h_nodes h1) ->
    exists h', set_parent h (f x) p = Some h' /\ attached h1 (pl ++ [(f x, p)]) h'.
  Proof.
    intros pl x p rest' h A E Ix Ip.
    assert (D : NoDup (map fst pl ++ f x :: map fst rest')).
    { pose proof edges_nodup as D. rewrite E, map_app in D. exact D. }
    apply (attach_step h1 h pl (f x) p T (h_root h0)); auto.
    - now apply f_live.
    - apply lookup_None. apply NoDup_remove_2 in D. intros I. apply D. apply in_app_iff. now left.
    - rewrite (ld_parent _ _ _ _ L). apply (wf_unused h0 W0). now apply f_fresh.
    - exact T_top.
    - apply T_reach. now apply f_live.
    - unfold T. rewrite (lookup_nodup _ edges (f x) p edges_nodup); [reflexivity|]. rewrite E. apply in_app_iff. right. now left.
    - exact (par_ext pl ((f x, p) :: rest') h A E).
  Qed.

  Lemma host_in : forall p, In p (h_nodes h0) -> In p (h_nodes h1).
  Proof. intros p I. rewrite (ld_nodes _ _ _ _ L). apply in_app_iff. now right. Qed.

  Lemma place_roots_spec : forall todo pl h, attached h1 pl h ->
    edges = pl ++ map (fun rp => (f (fst rp), snd rp)) todo ++ rest nodes -> incl todo roots ->
    exists h', place_roots m h todo = Some h' /\ attached h1 (pl ++ map (fun rp => (f (fst rp), snd rp)) todo) h'.
  Proof.
    induction todo as [|[r p] todo IH]; intros pl h A E I.
    - exists h. cbn. now rewrite app_nil_r.
    - cbn [map fst snd app] in E. cbn [place_roots map fst snd].
      assert (Ir : In (r, p) roots) by (apply I; now left).
      assert (Ix : In r nodes) by (apply RootsIn; apply in_map_iff; exists (r, p); auto).
      rewrite (f_lookup r Ix). destruct (place_one pl r p _ h A E Ix) as (h' & S & A').
      { apply host_in. eauto. }
      rewrite S. destruct (IH (pl ++ [(f r, p)]) h' A') as (h'' & S' & A'').
      + rewrite <- app_assoc. exact E.
      + intros y Y. apply I. now right.
      + exists h''. rewrite <- app_assoc in A''. auto.
  Qed.

  Lemma get_parent_new : forall pl h x, attached h1 pl h -> In x nodes -> get_parent h (f x) = lookup pl (f x).
  Proof.
    intros pl h x (par & kids & -> & Hp & _) I. unfold get_parent, contains. cbn [set_tree h_nodes h_root h_parent].
    rewrite (proj2 (memN_iff _ _) (f_live x I)). rewrite (ld_root _ _ _ _ L).
    destruct (N.eqb_spec (f x) (h_root h0)) as [E|_].
    { exfalso. apply (f_fresh x I). rewrite E. apply (wf_root h0 W0). }
    cbn [andb negb]. rewrite Hp, (ld_parent _ _ _ _ L). rewrite (proj1 (wf_unused h0 W0 (f x) (f_fresh x I))).
    now destruct (lookup pl (f x)).
  Qed.

  Lemma get_parent_other : forall x p, In x nodes -> h_parent other x = Some p -> get_parent other x = Some p.
  Proof.
    intros x p I E. unfold get_parent, contains. rewrite (proj2 (memN_iff _ _) (Live x I)).
    destruct (N.eqb_spec x (h_root other)) as [->|]; [rewrite (wf_top other W) in E; discriminate|exact E].
  Qed.

  Lemma place_rest_spec : forall todo pl h, attached h1 pl h -> edges = pl ++ rest todo -> incl todo nodes ->
    (forall r, In r (map fst roots) -> In (f r) (map fst pl)) ->
    exists h', place_rest other m h todo = Some h' /\ attached h1 (pl ++ rest todo) h'.
  Proof.
    induction todo as [|x todo IH]; intros pl h A E I Rt.
    - exists h. cbn. now rewrite app_nil_r.
    - assert (Ix : In x nodes) by (apply I; now left).
      assert (I' : incl todo nodes) by (intros y Y; apply I; now right).
      cbn [place_rest]. rewrite (f_lookup x Ix). rewrite (get_parent_new pl h x A Ix).
      unfold rest in E |- *. cbn [filter] in E |- *. destruct (is_root roots x) eqn:R; cbn [negb map] in E |- *.
      + apply memN_iff in R. destruct (lookup_ex _ pl (f x) (Rt x R)) as (v & Ev). rewrite Ev. apply IH; auto.
      + destruct (Closed x Ix R) as (p & Ep & Ip). unfold up_of at 1 in E. rewrite Ep in E.
        assert (D : ~ In (f x) (map fst pl)).
        { pose proof edges_nodup as D. rewrite E, map_app in D. cbn [map fst] in D. apply NoDup_remove_2 in D.
          intros X. apply D. apply in_app_iff. now left. }
        rewrite (proj2 (lookup_None _ pl (f x)) D). rewrite (get_parent_other x p Ix Ep), (f_lookup p Ip).
        destruct (place_one pl x (f p) _ h A E Ix (f_live p Ip)) as (h' & S & A'). rewrite S.
        destruct (IH (pl ++ [(f x, f p)]) h' A') as (h'' & S' & A''); auto.
        * rewrite <- app_assoc. exact E.
        * intros r X. rewrite map_app, in_app_iff. left. auto.
        * exists h''. split; [exact S'|]. rewrite <- app_assoc in A''. unfold up_of at 1. rewrite Ep. exact A''.
  Qed.

  Lemma attached_grafted : forall h', attached h1 edges h' -> grafted h0 other nodes roots f h' /\ wf h'.
  Proof.
    intros h' (par & kids & -> & Hp & Hk).
    assert (HT : forall y, par y = T y).
    { intros y. rewrite Hp. unfold T. now rewrite (ld_parent _ _ _ _ L). }
    assert (Hn : forall y, In y (h_nodes h1) <-> In y (h_nodes h0) \/ exists x, In x nodes /\ y = f x).
    { intros y. rewrite (ld_nodes _ _ _ _ L), in_app_iff. split.
      - intros [I|I]; [right|now left]. apply in_map_iff in I. destruct I as ([x v] & Ev & I). cbn [snd] in Ev. subst v.
        exists x. split; [apply Keys; apply in_map_iff; exists (x, y); auto|].
        unfold f, image_of. now rewrite (lookup_nodup _ m x y (ld_keys _ _ _ _ L) I).
      - intros [I|(x & I & ->)]; [now right|left]. apply f_lookup, lookup_In in I. apply in_map_iff. exists (x, f x). auto. }
    assert (Fk : forall y, ~ In y (h_nodes h0) -> h_kids h0 y = []).
    { intros y N0. apply (wf_unused h0 W0 y N0). }
    assert (RE : forall y, map fst (filter (fun e => N.eqb (snd e) y) root_edges) =
                           map f (map fst (filter (fun r => N.eqb (snd r) y) roots))).
    { intros y. unfold root_edges. clear. induction roots as [|[r p] rs IH]; [reflexivity|]. cbn [map filter fst snd].
      destruct (N.eqb p y); cbn [map fst]; now rewrite IH. }
    assert (RS : forall y, In y (h_nodes h0) -> map fst (filter (fun e => N.eqb (snd e) y) (rest nodes)) = []).
    { intros y Iy. unfold rest. assert (G : forall l, incl l nodes -> map fst (filter (fun e => N.eqb (snd e) y) (map (fun x => (f x, up_of x)) (filter (fun x => negb (is_root roots x)) l))) = []).
      { induction l as [|x l IH]; intros I; [reflexivity|]. assert (I' : incl l nodes) by (intros z Z; apply I; now right).
        cbn [filter]. destruct (is_root roots x) eqn:R; cbn [negb map filter snd]; [auto|].
        destruct (Closed x (I x (or_introl eq_refl)) R) as (p & E & Ip). unfold up_of at 1. rewrite E.
        destruct (N.eqb_spec (f p) y) as [Q|_]; [|auto]. exfalso. apply (f_fresh p Ip). now rewrite Q. }
      apply G. apply incl_refl. }
    assert (RX : forall x, In x nodes -> map fst (filter (fun e => N.eqb (snd e) (f x)) root_edges) = []).
    { intros x Ix. rewrite RE. assert (G : forall l, incl l roots -> map f (map fst (filter (fun r => N.eqb (snd r) (f x)) l)) = []).
      { induction l as [|[r p] l IH]; intros I; [reflexivity|]. cbn [filter snd]. destruct (N.eqb_spec p (f x)) as [Q|_].
        - exfalso. apply (f_fresh x Ix). rewrite <- Q. apply (RootsTo r p). apply I. now left.
        - apply IH. intros z Z. apply I. now right. }
      apply G. apply incl_refl. }
    assert (RN : forall x, In x nodes -> map fst (filter (fun e => N.eqb (snd e) (f x)) (rest nodes)) =
                   map f (filter (fun c => negb (is_root roots c) && has_parent other x c) nodes)).
    { intros x Ix. unfold rest. assert (G : forall l, incl l nodes ->
        map fst (filter (fun e => N.eqb (snd e) (f x)) (map (fun x => (f x, up_of x)) (filter (fun x => negb (is_root roots x)) l))) =
        map f (filter (fun c => negb (is_root roots c) && has_parent other x c) l)).
      { induction l as [|c l IH]; intros I; [reflexivity|]. assert (I' : incl l nodes) by (intros z Z; apply I; now right).
        cbn [filter]. destruct (is_root roots c) eqn:R; cbn [negb map filter snd andb]; [auto|].
        destruct (Closed c (I c (or_introl eq_refl)) R) as (p & E & Ip). unfold up_of at 1, has_parent at 1. rewrite E.
        destruct (N.eqb_spec p x) as [->|Ne].
        - rewrite N.eqb_refl. cbn [map fst]. now rewrite IH.
        - destruct (N.eqb_spec (f p) (f x)) as [Q|_]; [|auto]. exfalso. apply Ne. now apply f_inj. }
      apply G. apply incl_refl. }
    assert (Kf : forall p c, In c (map fst (filter (fun e => N.eqb (snd e) p) edges)) <-> lookup edges c = Some p).
    { intros p c. rewrite (lookup_iff _ edges edges_nodup). split.
      - intros I. apply in_map_iff in I. destruct I as ([a b] & E & I). apply filter_In in I. cbn [fst snd] in *.
        destruct I as [I Q]. apply N.eqb_eq in Q. subst. exact I.
      - intros I. apply in_map_iff. exists (c, p). split; [reflexivity|]. apply filter_In. split; [exact I|]. cbn [snd]. apply N.eqb_refl. }
    assert (To : forall c p, In (c, p) edges -> In p (h_nodes h1)).
    { intros c p I. unfold edges in I. apply in_app_iff in I. destruct I as [I|I].
      - apply in_map_iff in I. destruct I as ([r q] & E & I). cbn [fst snd] in E. injection E as <- <-. apply host_in. eauto.
      - unfold rest in I. apply in_map_iff in I. destruct I as (x & E & I). injection E as <- <-. apply filter_In in I.
        destruct I as [I R]. apply negb_true_iff in R. destruct (Closed x I R) as (q & E & Iq). unfold up_of. rewrite E. now apply f_live. }
    split.
    - constructor; cbn [set_tree h_nodes h_in h_out h_links h_ops h_meta h_parent h_kids h_root h_entry].
      + exact f_fresh.
      + exact f_inj.
      + exact Hn.
      + intros y I. rewrite (ld_meta _ _ _ _ L). destruct (ld_ports_old _ _ _ _ L y I) as [A B].
        repeat split; auto; [now apply (ld_ops _ _ _ _ L)|rewrite HT; now apply T_host|].
        rewrite Hk, (ld_kids _ _ _ _ L). unfold edges. rewrite filter_app, map_app, RE, (RS y I), app_nil_r. reflexivity.
      + intros x I. apply f_lookup, lookup_In in I. exact (ld_ports _ _ _ _ L x (f x) I).
      + intros r p I. rewrite HT. now apply T_root.
      + intros x I R. rewrite HT. destruct (Closed x I R) as (p & E & _). rewrite E. cbn [option_map]. now apply T_rest.
      + intros x I. rewrite Hk, (ld_kids _ _ _ _ L), (Fk _ (f_fresh x I)). cbn [app]. unfold edges.
        rewrite filter_app, map_app, (RX x I), (RN x I). reflexivity.
      + pose proof (ld_links _ _ _ _ L) as P.
        replace (filter (inside nodes) (h_links other)) with (filter (mapped m) (h_links other)); [exact P|].
        apply filter_ext. intros [[s i] [t j]]. unfold mapped, inside. cbn [fst snd].
        assert (Q : forall x, memN x (map fst m) = memN x nodes).
        { intros x. destruct (memN x nodes) eqn:X; [apply memN_iff, Keys; now apply memN_iff in X|].
          apply memN_false. apply memN_false in X. now rewrite <- Keys. }
        now rewrite !Q.
      + apply (ld_root _ _ _ _ L).
      + apply (ld_entry _ _ _ _ L).
    - constructor; cbn [set_tree h_nodes h_in h_out h_links h_ops h_meta h_parent h_kids h_root h_entry].
      + rewrite (ld_nodes _ _ _ _ L).
        assert (G : forall l, NoDup l -> (forall y, In y l -> ~ In y (h_nodes h0)) -> NoDup (l ++ h_nodes h0)).
        { induction l as [|y l IH]; intros D X; [apply (wf_nodup h0 W0)|]. inversion D; subst. cbn [app]. constructor.
          - rewrite in_app_iff. intros [I|I]; [contradiction|]. apply (X y (or_introl eq_refl) I).
          - apply IH; auto. intros z Z. apply X. now right. }
        apply G; [apply (ld_vals _ _ _ _ L)|apply (ld_fresh _ _ _ _ L)].
      + rewrite (ld_root _ _ _ _ L). apply host_in, (wf_root h0 W0).
      + rewrite (ld_entry _ _ _ _ L). apply host_in, (wf_entry h0 W0).
      + rewrite (ld_root _ _ _ _ L), HT. exact T_top.
      + intros n I Ne. rewrite (ld_root _ _ _ _ L) in Ne. rewrite HT. apply Hn in I. destruct I as [I|(x & I & ->)].
        * destruct (wf_parent h0 W0 n I Ne) as (p & E & Ip). exists p. split; [now apply T_ext|now apply host_in].
        * destruct (is_root roots x) eqn:R.
          -- apply memN_iff in R. apply in_map_iff in R. destruct R as ([r p] & E & J). cbn [fst] in E. subst r.
             exists p. split; [now apply T_root|]. apply host_in. eauto.
          -- destruct (Closed x I R) as (p & E & Ip). exists (f p). split; [now apply T_rest|now apply f_live].
      + intros p c. rewrite Hk, (ld_kids _ _ _ _ L), in_app_iff, Kf, HT, (wf_kids h0 W0). unfold T.
        destruct (lookup edges c) as [v|] eqn:E.
        * split; [|auto]. intros [X|X]; [|exact X]. exfalso. apply lookup_In in E.
          assert (Ic : In c (map fst edges)) by (apply in_map_iff; exists (c, v); auto).
          apply edges_fresh in Ic. destruct Ic as [Ic _]. apply (wf_unused h0 W0) in Ic. destruct Ic as [Ic _]. congruence.
        * split; [intros [X|X]; [exact X|discriminate]|auto].
      + intros p. rewrite Hk, (ld_kids _ _ _ _ L).
        assert (D : NoDup (map fst (filter (fun e => N.eqb (snd e) p) edges))).
        { assert (GG : forall l : list (N * N), NoDup (map fst l) -> NoDup (map fst (filter (fun e => N.eqb (snd e) p) l))); [|apply GG, edges_nodup].
          induction l as [|e l IH]; intros D; [constructor|]. cbn [map] in D.
          inversion D as [|? ? Ne D']; subst. cbn [filter]. destruct (N.eqb (snd e) p); [|auto]. cbn [map]. constructor; [|auto].
          intros I. apply Ne. apply in_map_iff in I. destruct I as (e' & E & I). apply filter_In in I. apply in_map_iff. exists e'. tauto. }
        assert (G : forall l, NoDup l -> (forall y, In y l -> In y (h_nodes h0)) ->
                    NoDup (l ++ map fst (filter (fun e => N.eqb (snd e) p) edges))).
        { induction l as [|y l IH]; intros Dl X; [exact D|]. inversion Dl; subst. cbn [app]. constructor.
          - rewrite in_app_iff. intros [I|I]; [contradiction|]. apply Kf in I. apply lookup_In in I.
            apply (edges_fresh y); [|apply X; now left]. apply in_map_iff. exists (y, p). auto.
          - apply IH; auto. intros z Z. apply X. now right. }
        apply G; [apply (wf_kids_once h0 W0)|]. intros y I. apply (wf_kids h0 W0) in I.
        destruct (in_dec N.eq_dec y (h_nodes h0)) as [J|J]; [exact J|]. apply (wf_unused h0 W0) in J. destruct J as [J _]. congruence.
      + intros n N1. rewrite HT. assert (N0 : ~ In n (h_nodes h0)) by (intros I; apply N1; now apply host_in). split.
        * unfold T. destruct (lookup edges n) eqn:E; [|apply (wf_unused h0 W0 n N0)]. exfalso. apply N1. apply lookup_In in E.
          apply edges_fresh. apply in_map_iff. exists (n, n0). auto.
        * rewrite Hk, (ld_kids _ _ _ _ L), (Fk n N0). cbn [app].
          destruct (map fst (filter (fun e => N.eqb (snd e) n) edges)) as [|c l] eqn:E; [reflexivity|]. exfalso.
          assert (I : lookup edges c = Some n) by (apply Kf; rewrite E; now left). apply lookup_In in I. apply N1. eauto.
      + intros n I. rewrite (ld_root _ _ _ _ L). apply (up_mono T); [|now apply T_reach]. intros y q. now rewrite HT.
      + intros l I. apply (Permutation_in _ (ld_links _ _ _ _ L)) in I. apply in_app_iff in I.
        unfold out_port, in_port. cbn [set_tree h_nodes h_in h_out]. destruct I as [I|I].
        * destruct (wf_links h0 W0 l I) as [[A B] [C D]]. rewrite (proj2 (ld_ports_old _ _ _ _ L _ A)), (proj1 (ld_ports_old _ _ _ _ L _ C)).
          repeat split; auto using host_in.
        * apply in_map_iff in I. destruct I as (l0 & <- & I). apply filter_In in I. destruct I as [I Mp].
          destruct (wf_links other W l0 I) as [[_ B] [_ D]]. destruct l0 as [[s i] [t j]]. unfold mapped in Mp. cbn [fst snd] in *.
          apply andb_true_iff in Mp. rewrite !memN_iff in Mp. destruct Mp as [Ms Mt]. apply Keys in Ms, Mt.
          unfold image. cbn [fst snd]. fold f. pose proof (f_lookup s Ms) as Es. pose proof (f_lookup t Mt) as Et. apply lookup_In in Es, Et.
          rewrite (proj2 (ld_ports _ _ _ _ L s (f s) Es)), (proj1 (ld_ports _ _ _ _ L t (f t) Et)).
          repeat split; auto using f_live.
  Qed.

  Lemma placed : exists h', match place_roots m h1 roots with
                            | Some h => place_rest other m h nodes | None => None end = Some h' /\
                            grafted h0 other nodes roots f h' /\ wf h'.
  Proof.
    destruct (place_roots_spec roots [] h1 (attach_start h1)) as (h2 & E2 & A2); [reflexivity|apply incl_refl|]. rewrite E2.
    cbn [app] in A2. destruct (place_rest_spec nodes root_edges h2 A2) as (h3 & E3 & A3); [reflexivity|apply incl_refl| |].
    - intros r I. unfold root_edges. rewrite map_map. cbn [fst]. apply in_map_iff in I. destruct I as ([a b] & <- & I).
      apply in_map_iff. exists (a, b). auto.
    - exists h3. split; [exact E3|]. now apply attached_grafted.
  Qed.
End Place.
