(** The undirected depth-first search of a control-flow graph. *)
From Coq Require Import List Bool Arith NArith Lia Relations Sorting.Sorted.
From Verif Require Import NestModel NestSpec NestProofs.
Import ListNotations.
Open Scope N_scope.

Lemma dest_eqb_eq a b : dest_eqb a b = true <-> a = b.
Proof. destruct a, b; cbn; rewrite ?N.eqb_eq; split; congruence. Qed.

Lemma all_edges_In g n d : In d (all_edges g n) <->
  match d with
  | Fwd t => In t (succ g n) \/ (n = exit g /\ t = entry g)
  | Bwd t => In t (pred g n)
  end.
Proof.
  unfold all_edges. rewrite (uniq_In dest_eqb dest_eqb_eq), in_app_iff, !in_map_iff. destruct d as [t|t].
  - split.
    + intros [(x & E & I)|(x & E & _)]; [|easy]. injection E as ->. apply in_app_iff in I as [I|I]; [now left|].
      destruct (N.eqb_spec n (exit g)); [|easy]. destruct I as [<-|[]]. now right.
    + intros H. left. exists t. split; [easy|]. apply in_app_iff. destruct H as [?|[-> ->]]; [now left|].
      right. rewrite N.eqb_refl. now left.
  - split.
    + intros [(x & E & _)|(x & E & I)]; [easy|]. now injection E as ->.
    + intros I. right. now exists t.
Qed.

(** A view of the edge from the other end. *)
Lemma flip_sym g s e : cfg_wf g -> In e (all_edges g s) ->
  (exists e', In e' (all_edges g (target e)) /\ flip s e = (target e, e') /\ flip (target e) e' = (s, e))
  \/ (s = exit g /\ e = Fwd (entry g)).
Proof.
  intros W I. apply all_edges_In in I. destruct e as [t|t]; cbn [target flip].
  - destruct I as [I|[-> ->]]; [|now right]. left. exists (Bwd s). split; [|easy]. apply all_edges_In. now apply (wf_converse g W).
  - left. exists (Fwd s). split; [|easy]. apply all_edges_In. left. now apply (wf_converse g W).
Qed.

Lemma vedge_of g s e : cfg_wf g -> In e (all_edges g s) -> vedge g (cfg_edge s e).
Proof.
  intros W I. apply all_edges_In in I. destruct e as [t|t]; cbn [cfg_edge]; unfold vedge, edge; cbn [fst snd].
  - destruct I as [I|[-> ->]]; auto.
  - left. now apply (wf_converse g W).
Qed.

Lemma get_In {A} n (l : list (N * A)) : (exists v, get n l = Some v) <-> In n (map fst l).
Proof.
  induction l as [|[k v] l IH]; cbn; [split; [now intros []|easy]|].
  destruct (N.eqb_spec n k) as [->|NE]; [split; [now left|eauto]|]. rewrite IH. split; [now right|].
  intros [->|]; easy.
Qed.
Lemma get_pair {A} n (l : list (N * A)) v : NoDup (map fst l) -> get n l = Some v <-> In (n, v) l.
Proof.
  induction l as [|[k w] l IH]; cbn; [easy|]. intros ND. apply NoDup_cons_iff in ND as [NI ND].
  destruct (N.eqb_spec n k) as [->|NE].
  - split; [intros E; injection E as ->; now left|]. intros [E|I]; [congruence|].
    exfalso. apply NI, in_map_iff. now exists (k, v).
  - rewrite (IH ND). split; [now right|]. intros [E|I]; [congruence|easy].
Qed.
Definition seenb {A} n (l : list (N * A)) : bool := match get n l with Some _ => true | None => false end.
Lemma seenb_In {A} n (l : list (N * A)) : seenb n l = true <-> In n (map fst l).
Proof. rewrite <- get_In. unfold seenb. destruct (get n l); split; try easy; eauto. now intros []. Qed.

Lemma sorted_app {A} (R : A -> A -> Prop) l1 l2 : StronglySorted R l1 -> StronglySorted R l2 ->
  (forall x y, In x l1 -> In y l2 -> R x y) -> StronglySorted R (l1 ++ l2).
Proof.
  intros S1 S2 C. induction l1 as [|a l1 IH]; [easy|]. apply StronglySorted_inv in S1 as [S1 F]. cbn. constructor.
  - apply IH; [easy|]. intros x y X Y. apply C; [now right|easy].
  - apply Forall_app. split; [easy|]. apply Forall_forall. intros y Y. apply C; [now left|easy].
Qed.
Lemma sorted_impl {A} (R S : A -> A -> Prop) l : (forall x y, In x l -> R x y -> S x y) ->
  StronglySorted R l -> StronglySorted S l.
Proof.
  intros IM. induction l as [|a l IH]; intros SS; [constructor|]. apply StronglySorted_inv in SS as [SS F]. constructor.
  - apply IH; [|easy]. intros x y I. apply IM. now right.
  - eapply Forall_impl; [|exact F]. intros y. apply IM. now left.
Qed.
Lemma sorted_const {A} (R : A -> A -> Prop) l : (forall x y, In x l -> In y l -> R x y) -> StronglySorted R l.
Proof.
  induction l as [|a l IH]; intros H; constructor.
  - apply IH. intros x y X Y. apply H; now right.
  - apply Forall_forall. intros y Y. apply H; [now left|now right].
Qed.

(** The parent of [c] in the tree is [p]. *)
Definition par (root : N) (seen : list (N * dest)) (c p : N) : Prop :=
  c <> root /\ exists d, In (c, d) seen /\ target d = p.
(** [a] is [c] or an ancestor of it. *)
Definition anc (root : N) (seen : list (N * dest)) (a c : N) : Prop := clos_refl_trans N (par root seen) c a.

Lemma anc_grow root seen x a c : anc root seen a c -> anc root (x :: seen) a c.
Proof.
  intros P. unfold anc in *. induction P as [u v (NE & d & I & E)|u|u v w _ A _ B]; [|apply rt_refl|eapply rt_trans; eassumption].
  apply rt_step. split; [easy|]. exists d. split; [now right|easy].
Qed.

Section Dfs.
  Variable g : cfg.
  Hypothesis W : cfg_wf g.
  Variable reach : list N.
  Hypothesis RB : incl reach (blocks g).

  Local Notation src x := (target (snd x)) (only parsing).

  Record dinv (pending seen : list (N * dest)) : Prop := {
    d_nodup : NoDup (map fst seen);
    d_reach : forall n, In n (map fst seen) -> In n reach;
    d_edge : forall n p, In (n, p) pending -> exists e, In e (all_edges g (target p)) /\ flip (target p) e = (n, p);
    d_src : forall n p, In (n, p) pending -> In (target p) (map fst seen);
    d_chain : StronglySorted (fun x y : N * dest => anc (entry g) seen (target (snd y)) (target (snd x))) pending;
    d_todo : forall s e, In s (map fst seen) -> In e (all_edges g s) -> In (target e) reach ->
      In (target e) (map fst seen) \/ In (flip s e) pending;
    d_back : forall s e, In s (map fst seen) -> In e (all_edges g s) -> In (target e) (map fst seen) ->
      anc (entry g) seen s (target e) \/ anc (entry g) seen (target e) s;
    d_root : forall n, In n (map fst seen) -> anc (entry g) seen (entry g) n;
    d_parent : forall n p l l', seen = l ++ (n, p) :: l' -> l' <> [] ->
      In (target p) (map fst l') /\ exists e, In e (all_edges g (target p)) /\ flip (target p) e = (n, p);
    d_first : exists l p, seen = l ++ [(entry g, p)] }.

  Lemma flip_fst s e : fst (flip s e) = target e.
  Proof. now destruct e. Qed.
  Lemma flip_src s e : target (snd (flip s e)) = s.
  Proof. now destruct e. Qed.

  Lemma dinv_skip n p pending seen : dinv ((n, p) :: pending) seen ->
    In n (map fst seen) \/ ~ In n reach -> dinv pending seen.
  Proof.
    intros [] H. constructor; auto.
    - intros m q I. apply d_edge0. now right.
    - intros m q I. eapply d_src0. right. exact I.
    - now apply StronglySorted_inv in d_chain0.
    - intros s e S I R. destruct (d_todo0 s e S I R) as [?|[E|?]]; [now left| |now right].
      assert (T : target e = n). { now rewrite <- (flip_fst s e), <- E. }
      rewrite T in R |- *. left. destruct H; [easy|]. contradiction.
  Qed.

  Lemma dinv_visit n p pending seen : dinv ((n, p) :: pending) seen ->
    ~ In n (map fst seen) -> In n reach ->
    dinv (rev (map (flip n) (all_edges g n)) ++ pending) ((n, p) :: seen).
  Proof.
    intros D NS R. pose proof (d_src _ _ D n p (or_introl eq_refl)) as PS.
    pose proof (StronglySorted_inv (d_chain _ _ D)) as [CH FO]. rewrite Forall_forall in FO.
    assert (UP : anc (entry g) ((n, p) :: seen) (target p) n).
    { apply rt_step. split; [|exists p; split; [now left|easy]]. intros ->. apply NS.
      destruct (d_first _ _ D) as (l & q & ->). rewrite map_app. apply in_app_iff. right. now left. }
    assert (SRC : forall s e, In s (map fst seen) -> In e (all_edges g s) -> target e = n ->
              anc (entry g) ((n, p) :: seen) s n).
    { intros s e S I T. destruct (d_todo _ _ D s e S I) as [X|[X|X]].
      - now rewrite T.
      - exfalso. apply NS. now rewrite <- T.
      - rewrite <- (flip_src s e), <- X. exact UP.
      - eapply rt_trans; [exact UP|]. apply anc_grow. specialize (FO _ X). cbn [snd] in FO. now rewrite flip_src in FO. }
    constructor.
    - cbn. constructor; [easy|apply D].
    - intros m [<-|I]; [easy|]. now apply D.
    - intros m q I. apply in_app_iff in I as [I|I].
      + apply in_rev, in_map_iff in I as (e & E & I). exists e. rewrite <- (flip_src n e) in I at 1.
        pose proof (flip_src n e) as FS. rewrite E in FS. cbn [snd] in FS. rewrite FS.
        rewrite flip_src in I. now split.
      + apply (d_edge _ _ D). now right.
    - intros m q I. apply in_app_iff in I as [I|I].
      + apply in_rev, in_map_iff in I as (e & E & I). pose proof (flip_src n e) as FS. rewrite E in FS. cbn [snd] in FS. left. now rewrite FS.
      + right. apply (d_src _ _ D m). now right.
    - apply sorted_app.
      + apply sorted_const. intros x y X Y. apply in_rev, in_map_iff in X as (e & <- & _). apply in_rev, in_map_iff in Y as (f & <- & _).
        rewrite !flip_src. apply rt_refl.
      + eapply sorted_impl; [|exact CH]. intros x y _. apply anc_grow.
      + intros x y X Y. apply in_rev, in_map_iff in X as (e & <- & _). rewrite flip_src.
        eapply rt_trans; [exact UP|]. apply anc_grow. exact (FO y Y).
    - intros s e [<-|S] I RE.
      + right. apply in_app_iff. left. apply in_rev. rewrite rev_involutive. now apply in_map.
      + destruct (d_todo _ _ D s e S I RE) as [X|[X|X]].
        * left. now right.
        * left. left. cbn [fst]. now rewrite <- (flip_fst s e), <- X.
        * right. apply in_app_iff. now right.
    - intros s e S I T. cbn [map fst] in S, T. destruct S as [<-|S], T as [T|T].
      + left. rewrite <- T. apply rt_refl.
      + right. destruct (flip_sym g n e W I) as [(e' & I' & _ & F)|[-> ->]].
        * apply (SRC (target e) e' T I'). rewrite <- flip_fst with (s := target e), F. easy.
        * cbn [target]. eapply rt_trans; [exact UP|]. apply anc_grow. now apply (d_root _ _ D).
      + left. rewrite <- T. now apply (SRC s e S I).
      + destruct (d_back _ _ D s e S I T); [left|right]; now apply anc_grow.
    - intros m [<-|I].
      + eapply rt_trans; [exact UP|]. apply anc_grow. now apply (d_root _ _ D).
      + apply anc_grow. now apply (d_root _ _ D).
    - intros m q l l' E NE. destruct l as [|y l]; cbn in E.
      + injection E as <- <- <-. split; [easy|]. apply (d_edge _ _ D). now left.
      + injection E as <- E. now apply (d_parent _ _ D _ _ l).
    - destruct (d_first _ _ D) as (l & q & ->). now exists ((n, p) :: l), q.
  Qed.

  Lemma dfs_loop_inv fuel : forall pending seen r, dfs_loop g reach fuel pending seen = Some r ->
    dinv pending seen -> dinv [] r.
  Proof.
    induction fuel as [|fuel IH]; intros pending seen r E D; [easy|]. cbn [dfs_loop] in E.
    destruct pending as [|[n p] pending]; [now injection E as <-|].
    change (match get n seen with Some _ => true | None => false end) with (seenb n seen) in E.
    destruct (seenb n seen) eqn:S; cbn [orb] in E.
    - apply seenb_In in S. apply (IH _ _ _ E). eapply dinv_skip; [exact D|now left].
    - destruct (mem n reach) eqn:M; cbn [negb] in E.
      + apply (IH _ _ _ E). apply dinv_visit; [easy| |now apply mem_In].
        intros I. apply seenb_In in I. congruence.
      + apply (IH _ _ _ E). apply mem_out in M. eapply dinv_skip; [exact D|now right].
  Qed.

  (** The first step. *)
  Lemma dinv_start p : In (entry g) reach ->
    dinv (rev (map (flip (entry g)) (all_edges g (entry g)))) [(entry g, p)].
  Proof.
    intros R. constructor.
    - cbn. constructor; [easy|constructor].
    - now intros n [<-|[]].
    - intros n q I. apply in_rev, in_map_iff in I as (e & E & I). exists e. pose proof (flip_src (entry g) e) as FS.
      rewrite E in FS. cbn [snd] in FS. rewrite FS. now split.
    - intros n q I. apply in_rev, in_map_iff in I as (e & E & I). pose proof (flip_src (entry g) e) as FS.
      rewrite E in FS. cbn [snd] in FS. left. now rewrite FS.
    - apply sorted_const. intros x y X Y. apply in_rev, in_map_iff in X as (e & <- & _). apply in_rev, in_map_iff in Y as (f & <- & _).
      rewrite !flip_src. apply rt_refl.
    - intros s e [<-|[]] I _. right. apply in_rev. rewrite rev_involutive. now apply in_map.
    - intros s e [<-|[]] I [T|[]]. left. cbn [fst] in T. rewrite <- T. apply rt_refl.
    - intros n [<-|[]]. apply rt_refl.
    - intros n q l l' E NE. destruct l as [|y l]; [cbn in E; now injection E as _ _ <-|].
      cbn in E. injection E as _ E. now destruct l.
    - now exists [], p.
  Qed.

  Definition drest (seen : list (N * dest)) : nat :=
    fold_right (fun n k => (length (all_edges g n) + k)%nat) 0%nat
      (filter (fun n => negb (seenb n seen)) (blocks g)).

  Lemma drest_drop n p seen : In n (blocks g) -> seenb n seen = false ->
    (drest ((n, p) :: seen) + length (all_edges g n) <= drest seen)%nat.
  Proof.
    intros I F. unfold drest.
    assert (G : forall l, (fold_right (fun m k => (length (all_edges g m) + k)%nat) 0%nat (filter (fun m => negb (seenb m ((n, p) :: seen))) l)
                           <= fold_right (fun m k => (length (all_edges g m) + k)%nat) 0%nat (filter (fun m => negb (seenb m seen)) l))%nat).
    { induction l as [|x l IH]; [cbn; lia|]. cbn [filter]. unfold seenb at 1. cbn [get].
      destruct (x =? n) eqn:XN; cbn [negb].
      - destruct (negb (seenb x seen)); cbn [fold_right]; lia.
      - fold (seenb x seen). destruct (negb (seenb x seen)); cbn [fold_right]; lia. }
    apply in_split in I as (l1 & l2 & ->). rewrite !filter_app, !fold_right_app.
    assert (FA : forall l k, fold_right (fun m k => (length (all_edges g m) + k)%nat) k l
                 = (fold_right (fun m k => (length (all_edges g m) + k)%nat) 0%nat l + k)%nat).
    { induction l as [|x l IH]; intros k; cbn; [easy|]. rewrite IH. lia. }
    rewrite FA. rewrite (FA (filter _ l1) (fold_right _ _ (filter (fun m => negb (seenb m seen)) (n :: l2)))).
    pose proof (G l1). pose proof (G l2). cbn [filter].
    assert (E1 : seenb n ((n, p) :: seen) = true) by (unfold seenb; cbn; now rewrite N.eqb_refl).
    rewrite E1, F. cbn [negb]. cbn [fold_right]. lia.
  Qed.

  Lemma dfs_loop_total fuel : forall pending seen,
    (length pending + drest seen < fuel)%nat -> exists r, dfs_loop g reach fuel pending seen = Some r.
  Proof.
    induction fuel as [|fuel IH]; intros pending seen L; [lia|]. cbn [dfs_loop].
    destruct pending as [|[n p] pending]; [eauto|].
    change (match get n seen with Some _ => true | None => false end) with (seenb n seen).
    cbn [length] in L. destruct (seenb n seen) eqn:S; cbn [orb]; [apply IH; lia|].
    destruct (mem n reach) eqn:M; cbn [negb]; [|apply IH; lia].
    apply IH. rewrite app_length, rev_length, map_length.
    apply mem_In, RB in M. pose proof (drest_drop n p seen M S). lia.
  Qed.
End Dfs.

(** * The tree *)
Lemma numbered_get seen : NoDup (map fst seen) -> forall l n p l', seen = l ++ (n, p) :: l' -> get n (numbered seen) = Some (length l').
Proof.
  induction seen as [|[m q] seen IH]; intros ND l n p l' E; [now destruct l|].
  cbn in ND. apply NoDup_cons_iff in ND as [NI ND]. destruct l as [|y l]; cbn in E.
  - injection E as <- <- <-. cbn. now rewrite N.eqb_refl.
  - injection E as <- E. cbn. destruct (N.eqb_spec n m) as [->|NE]; [|now apply (IH ND l n p)].
    exfalso. apply NI. rewrite E, map_app. apply in_app_iff. right. now left.
Qed.
Lemma numbered_fst seen : map fst (numbered seen) = map fst seen.
Proof. induction seen as [|[n p] seen IH]; cbn; congruence. Qed.

(** The tree that the search makes. *)
Record dfs_tree (g : cfg) (t : dfs) : Prop := {
  t_numbered : forall n, (exists d, dnum t n = Some d) <-> leads g n (exit g);
  t_entry : dnum t (entry g) = Some 0%nat;
  t_inj : forall a b d, dnum t a = Some d -> dnum t b = Some d -> a = b;
  t_parent : forall n d, dnum t n = Some d -> n <> entry g -> exists p dp,
    get n (parents t) = Some p /\ dnum t (target p) = Some dp /\ (dp < d)%nat
    /\ (exists e, In e (all_edges g (target p)) /\ flip (target p) e = (n, p));
  t_root : get (entry g) (parents t) = None;
  t_only : forall n p, get n (parents t) = Some p -> exists d, dnum t n = Some d;
  t_back : forall a b da db, dnum t a = Some da -> dnum t b = Some db -> joined g a b ->
    clos_refl_trans N (fun c p => exists d, get c (parents t) = Some d /\ target d = p) a b
    \/ clos_refl_trans N (fun c p => exists d, get c (parents t) = Some d /\ target d = p) b a }.

Lemma back_wl g fuel : forall q found, back_loop g fuel q found = wl (pred g) fuel q found.
Proof.
  induction fuel as [|fuel IH]; intros q found; [easy|]. destruct q as [|n q]; [easy|]. cbn.
  destruct (mem n found); apply IH.
Qed.

Lemma leads_pred g a b : cfg_wf g -> clos_refl_trans N (step (pred g)) b a <-> leads g a b.
Proof.
  intros W. unfold leads. split; intros P; (induction P as [x y S|x|x y z _ A _ B]; [|apply rt_refl|eapply rt_trans; eassumption]);
    apply rt_step; unfold step in *; now apply (wf_converse g W).
Qed.

Lemma back_reach g : cfg_wf g -> exists l, back_loop g (back_fuel g) [exit g] [] = Some l /\ NoDup l
  /\ incl l (blocks g) /\ forall n, In n l <-> leads g n (exit g).
Proof.
  intros W. destruct (wl_reach (pred g) (blocks g)) with (fuel := back_fuel g) (a := exit g) as (l & E & ND & R).
  - intros a b I. apply (wf_converse g W) in I. now apply (wf_closed g W) in I.
  - apply W.
  - unfold back_fuel. lia.
  - exists l. rewrite back_wl. split; [easy|]. split; [easy|].
    assert (R' : forall n, In n l <-> leads g n (exit g)). { intros n. rewrite R. now apply leads_pred. }
    split; [|easy]. intros n I. apply R' in I. apply clos_rt_rt1n in I.
    remember (exit g) as x eqn:EX. destruct I as [|m k S _]; [subst; apply W|].
    now apply (wf_closed g W) in S.
Qed.

Lemma dfs_tree_made g : cfg_wf g -> leads g (entry g) (exit g) -> exists t, undirected_dfs g = Some t /\ dfs_tree g t.
Proof.
  intros W L. destruct (back_reach g W) as (reach & E & ND & RB & R). unfold undirected_dfs. rewrite E.
  assert (IE : In (entry g) reach) by now apply R.
  destruct (dfs_loop_total g reach RB (dfs_fuel g) [(entry g, Bwd (exit g))] []) as (seen & F).
  { unfold dfs_fuel, drest. cbn [length].
    assert (X : forall l, (fold_right (fun m k => (length (all_edges g m) + k)%nat) 0%nat (filter (fun m => negb (seenb m (@nil (N * dest)))) l)
                     <= fold_right (fun m k => (length (all_edges g m) + k)%nat) 0%nat l)%nat).
    { induction l as [|x l IH]; [easy|]. cbn [filter seenb get negb fold_right] in *. lia. }
    specialize (X (blocks g)). lia. }
  rewrite F.
  assert (D : dinv g reach [] seen).
  { remember (dfs_fuel g) as k. destruct k as [|k]; [easy|]. cbn [dfs_loop get] in F. cbn [orb] in F.
    assert (M : mem (entry g) reach = true) by now apply mem_In. rewrite M in F. cbn [negb] in F.
    eapply (dfs_loop_inv g W reach); [exact F|]. rewrite app_nil_r. now apply dinv_start. }
  destruct (d_first _ _ _ _ D) as (l0 & p0 & FI).
  assert (NDS : NoDup (map fst seen)) by apply D.
  assert (GE : get (entry g) seen = Some p0).
  { apply get_pair; [easy|]. rewrite FI. apply in_app_iff. right. now left. }
  rewrite GE. eexists. split; [reflexivity|].
  set (t := Dfs _ _).
  assert (NUM : forall n d, dnum t n = Some d <-> exists l p l', seen = l ++ (n, p) :: l' /\ length l' = d).
  { intros n d. unfold dnum, t. cbn [nums]. split.
    - intros G. assert (I : In n (map fst seen)). { rewrite <- numbered_fst. apply get_In. eauto. }
      apply in_map_iff in I as ([m p] & <- & I). apply in_split in I as (l & l' & ->).
      exists l, p, l'. split; [easy|]. cbn [fst] in G. rewrite (numbered_get _ NDS l m p l' eq_refl) in G. congruence.
    - intros (l & p & l' & E' & <-). now apply (numbered_get _ NDS l n p). }
  assert (SEEN : forall n, (exists d, dnum t n = Some d) <-> In n (map fst seen)).
  { intros n. unfold dnum, t. cbn [nums]. now rewrite get_In, numbered_fst. }
  assert (PAR : forall n p, get n (parents t) = Some p <-> In (n, p) seen /\ n <> entry g).
  { intros n p. unfold t. cbn [parents]. rewrite get_pair.
    - rewrite filter_In. cbn [fst]. destruct (N.eqb_spec n (entry g)); cbn; intuition congruence.
    - clear - NDS. induction seen as [|[m q] s IH]; cbn; [constructor|]. cbn in NDS. apply NoDup_cons_iff in NDS as [NI NDS].
      destruct (negb (m =? entry g)); [|now apply IH]. cbn. constructor; [|now apply IH].
      intros I. apply NI. apply in_map_iff in I as (x & <- & I). apply filter_In in I as [I _]. now apply in_map. }
  assert (CLOSED : forall s e, In s (map fst seen) -> In e (all_edges g s) -> In (target e) reach -> In (target e) (map fst seen)).
  { intros s e S I RE. now destruct (d_todo _ _ _ _ D s e S I RE). }
  assert (EXIT : In (exit g) (map fst seen)).
  { assert (G : forall n x, clos_refl_trans_1n N (fun x y => In y (succ g x)) n x -> x = exit g -> In n (map fst seen) -> In x (map fst seen)).
    { intros n x0 P. induction P as [x|x y z S P IH]; intros EX I; [easy|].
      apply (IH EX). apply (CLOSED x (Fwd y) I); [apply all_edges_In; now left|]. cbn [target]. apply R.
      unfold leads. rewrite <- EX. now apply clos_rt1n_rt. }
    apply (G (entry g)); [now apply clos_rt_rt1n|easy|]. rewrite FI, map_app. apply in_app_iff. right. now left. }
  assert (ALL : forall n, In n (map fst seen) <-> leads g n (exit g)).
  { intros n. split; [intros I; apply R; now apply D|]. intros P.
    assert (G : forall x, clos_refl_trans_1n N (fun x y => In y (succ g x)) n x -> x = exit g -> In n (map fst seen)).
    { intros x0 P'. clear P. induction P' as [x|x y z S P IH]; intros EX; [now rewrite EX|].
      apply (CLOSED y (Bwd x) (IH EX)).
      - apply all_edges_In. now apply (wf_converse g W).
      - cbn [target]. apply R. unfold leads. rewrite <- EX. eapply rt_trans; [apply rt_step; exact S|now apply clos_rt1n_rt]. }
    apply (G (exit g)); [now apply clos_rt_rt1n|easy]. }
  assert (ANC : forall a b, anc (entry g) seen a b ->
            clos_refl_trans N (fun c p => exists d, get c (parents t) = Some d /\ target d = p) b a).
  { intros a b P. unfold anc in P. induction P as [x y (NE & d & I & T)|x|x y z _ A _ B];
      [|apply rt_refl|eapply rt_trans; eassumption].
    apply rt_step. exists d. split; [now apply PAR|easy]. }
  constructor.
  - intros n. now rewrite SEEN.
  - apply NUM. now exists l0, p0, [].
  - intros a b d A B. apply NUM in A as (l1 & p1 & l1' & E1 & <-). apply NUM in B as (l2 & p2 & l2' & E2 & LE).
    assert (X : skipn (length l1) seen = (a, p1) :: l1').
    { rewrite E1, skipn_app, skipn_all, Nat.sub_diag. reflexivity. }
    assert (Y : skipn (length l2) seen = (b, p2) :: l2').
    { rewrite E2, skipn_app, skipn_all, Nat.sub_diag. reflexivity. }
    assert (LL : length l1 = length l2).
    { assert (Z : length (l1 ++ (a, p1) :: l1') = length (l2 ++ (b, p2) :: l2')) by congruence.
      rewrite !app_length in Z. cbn [length] in Z. lia. }
    rewrite LL in X. congruence.
  - intros n d A NE. apply NUM in A as (l & p & l' & E' & <-).
    assert (NN : l' <> []).
    { intros ->. rewrite E' in FI. apply app_inj_tail in FI as [_ FI]. congruence. }
    destruct (d_parent _ _ _ _ D n p l l' E' NN) as (IP & e & IE' & FE).
    apply in_map_iff in IP as ([m q] & EM & IP). cbn [fst] in EM. apply in_split in IP as (k & k' & ->).
    exists p, (length k'). split; [apply PAR; split; [|easy]; rewrite E'; apply in_app_iff; right; now left|].
    split. { apply NUM. exists (l ++ (n, p) :: k), q, k'. split; [|easy]. rewrite <- EM, E', <- app_assoc. reflexivity. }
    split; [rewrite app_length; cbn [length]; lia|]. now exists e.
  - destruct (get (entry g) (parents t)) as [p|] eqn:G; [|easy]. apply PAR in G as [_ []]. easy.
  - intros n p G. apply PAR in G as [I _]. apply SEEN. now apply in_map with (f := fst) in I.
  - intros a b da db A B J.
    assert (SA : In a (map fst seen)) by (apply SEEN; eauto). assert (SB : In b (map fst seen)) by (apply SEEN; eauto).
    assert (K : forall x y, In x (map fst seen) -> In y (map fst seen) -> vedge g (x, y) ->
              anc (entry g) seen x y \/ anc (entry g) seen y x).
    { intros x y X Y V. apply (d_back _ _ _ _ D x (Fwd y) X); [|easy]. apply all_edges_In.
      destruct V as [V|V]; [now left|]. injection V as -> ->. now right. }
    destruct J as [J|J].
    + destruct (K a b SA SB J) as [H|H]; apply ANC in H; auto.
    + destruct (K b a SB SA J) as [H|H]; apply ANC in H; auto.
Qed.

(** Without a way from the entry to the exit the search panics. *)
Lemma dfs_tree_panics g : cfg_wf g -> ~ leads g (entry g) (exit g) -> undirected_dfs g = None.
Proof.
  intros W L. destruct (back_reach g W) as (reach & E & ND & RB & R). unfold undirected_dfs. rewrite E.
  assert (M : mem (entry g) reach = false). { apply mem_out. intros I. now apply L, R. }
  unfold dfs_fuel. cbn [dfs_loop get orb]. rewrite M. cbn [negb]. reflexivity.
Qed.
