(** Proofs about the checks of validation: one lemma for each check. *)
From Coq Require Import List Bool NArith Arith Lia Relations Permutation.
From Verif Require Import TagModel TypesModel TypesProofs GraphModel GraphSpec GraphProofs GraphRemove Graphs OpModel OpSpec OpProofs
  DeadModel DeadProofs DeadFuncs ValidModel ValidSpec.
Import ListNotations.

(** ** Results *)
Lemma vseq_ok : forall a b, vseq a b = VOk <-> a = VOk /\ b = VOk.
Proof. intros [| |] b; cbn; split; try (intros [? ?]); intuition discriminate. Qed.

Lemma vcheck_ok : forall b e, vcheck b e = VOk <-> b = true.
Proof. intros [] e; cbn; split; congruence. Qed.

Lemma vall_ok : forall {A} (f : A -> vres) l, vall f l = VOk <-> forall x, In x l -> f x = VOk.
Proof.
  intros A f. induction l as [|x l IH]; [cbn; split; [easy|reflexivity]|].
  unfold vall in *. cbn [fold_right]. rewrite vseq_ok, IH. split.
  - intros [E F] y [<-|I]; auto.
  - intros F. split; [apply F; now left|]. intros y I. apply F. now right.
Qed.

Lemma row_eqb_iff : forall a b, row_eqb a b = true <-> a = b.
Proof.
  intros a b. unfold row_eqb. apply list_eqb_eq. apply Forall_forall. intros t _ u. apply eqb_eq_both.
Qed.

Lemma terms_eqb_iff : forall a b, list_eqb term_eqb a b = true <-> a = b.
Proof. intros a b. apply list_eqb_eq. apply Forall_forall. intros t _ u. apply eqb_eq_both. Qed.

Lemma poly_eqb_iff : forall a b, poly_eqb a b = true <-> a = b.
Proof.
  intros [pa ia oa] [pb ib ob]. unfold poly_eqb. cbn. rewrite !andb_true_iff, terms_eqb_iff, !row_eqb_iff.
  split; [intros [[-> ->] ->]; reflexivity|]. intros E. injection E as -> -> ->. auto.
Qed.

Lemma kind_eqb_iff : forall a b, kind_eqb a b = true <-> a = b.
Proof.
  assert (T : forall t u, ty_eqb t u = true <-> t = u) by (intros t u; apply eqb_eq_both).
  intros [|t|t|f|] [|u|u|g|]; cbn; try (split; [discriminate|intros E; discriminate]); try (split; reflexivity).
  - rewrite T. split; [now intros ->|]. now intros [= ->].
  - rewrite T. split; [now intros ->|]. now intros [= ->].
  - rewrite poly_eqb_iff. split; [now intros ->|]. now intros [= ->].
Qed.

Lemma tag_eqb_iff : forall a b, tag_eqb a b = true <-> a = b.
Proof. intros [] []; vm_compute; split; congruence. Qed.

(** ** Containers *)
Lemma region_iff : forall o i u, region o i u <-> inner_signature o = Some (i, u).
Proof.
  intros o i u. split.
  - intros R. destruct R; reflexivity.
  - destruct o; cbn; try discriminate; intros E; injection E; intros; subst;
      repeat match goal with s : sig |- _ => destruct s end; cbn in *; subst; try constructor.
    all: try (injection E as -> ->; constructor).
Qed.

Lemma not_region : forall o i u, inner_signature o = None -> ~ region o i u.
Proof. intros o i u E R. apply region_iff in R. congruence. Qed.

Lemma children_iff : forall p c, within (f_children (validity_flags p)) (op_tag c) = true <-> allowed p c.
Proof.
  assert (R : forall p c, inner_signature p <> None -> boundary c \/ in_dataflow c -> allowed p c).
  { intros p c E D. destruct (inner_signature p) as [[i u]|] eqn:X; [|congruence]. apply region_iff in X.
    destruct D as [B|D]; [|eapply al_dataflow; eassumption]. destruct c; try contradiction; [eapply al_input|eapply al_output]; exact X. }
  intros p c. split.
  - intros W. destruct p, c; try (vm_compute in W; discriminate); try constructor;
      try (apply R; [discriminate|cbn; first [left; exact Logic.I|right; constructor]]).
  - intros A. destruct A as [| | | | | | | | |p i o r G|p i o r G|p i o c G D]; try (vm_compute; reflexivity).
    + destruct G; vm_compute; reflexivity.
    + destruct G; vm_compute; reflexivity.
    + destruct G, D; vm_compute; reflexivity.
Qed.

Lemma container_iff : forall o, negb (tag_eqb (f_children (validity_flags o)) TNone) = true <-> container o.
Proof.
  intros o. unfold container. split.
  - intros E. destruct o; try (vm_compute in E; discriminate).
    + exists (OAliasDecl 0 Copyable). constructor.
    + exists (OInput []). eapply al_input. apply region_iff. reflexivity.
    + destruct s. exists (OInput []). eapply al_input. apply region_iff. reflexivity.
    + exists (OInput []). eapply al_input. apply region_iff. reflexivity.
    + exists (OInput []). eapply al_input. apply region_iff. reflexivity.
    + exists (OExit []). constructor.
    + exists (OCase ([], [])). constructor.
    + destruct s. exists (OInput []). eapply al_input. apply region_iff. reflexivity.
  - intros (c & A). destruct A as [| | | | | | | | |p i o r G|p i o r G|p i o c G D]; try (vm_compute; reflexivity);
      destruct G; vm_compute; reflexivity.
Qed.

(** ** Acyclic regions *)
Definition open_out (es : list (N * N)) (done : list N) : nat := length (filter (fun e => negb (memN (fst e) done)) es).

Lemma open_out_step : forall es n done, ~ In n done -> open_out es (n :: done) + length (succs es n) = open_out es done.
Proof.
  intros es n done D. apply memN_false in D. unfold open_out, succs. rewrite map_length.
  induction es as [|[a b] es IH]; [reflexivity|]. cbn [filter fst]. rewrite memN_cons.
  destruct (N.eqb_spec a n) as [->|Ne].
  - cbn [orb negb length]. rewrite D. cbn [negb length]. lia.
  - cbn [orb]. destruct (memN a done); cbn [negb length]; lia.
Qed.

Lemma in_succs : forall es a b, In b (succs es a) <-> In (a, b) es.
Proof.
  intros es a b. unfold succs. rewrite in_map_iff. split.
  - intros ([x y] & E & I). apply filter_In in I. destruct I as [I X]. cbn in E, X. apply N.eqb_eq in X. subst. exact I.
  - intros I. exists (a, b). split; [reflexivity|]. apply filter_In. split; [exact I|]. cbn. apply N.eqb_refl.
Qed.

Lemma in_preds : forall es a b, In a (preds es b) <-> In (a, b) es.
Proof.
  intros es a b. unfold preds. rewrite in_map_iff. split.
  - intros ([x y] & E & I). apply filter_In in I. destruct I as [I X]. cbn in E, X. apply N.eqb_eq in X. subst. exact I.
  - intros I. exists (a, b). split; [reflexivity|]. apply filter_In. split; [exact I|]. cbn. apply N.eqb_refl.
Qed.

(** A visited node comes after (that is, to the left of) all its predecessors. *)
Definition ranked (es : list (N * N)) (l : list N) : Prop :=
  forall l1 n l2, l = l1 ++ n :: l2 -> forall a, In (a, n) es -> In a l2.

Lemma ranked_cons : forall es l n, ranked es l -> (forall a, In (a, n) es -> In a l) -> ranked es (n :: l).
Proof.
  intros es l n R H l1 m l2 E a I. destruct l1 as [|x l1]; cbn in E; injection E as -> ->; [auto|].
  eapply R; [reflexivity|exact I].
Qed.

Lemma filter_shorter : forall {A} (f : A -> bool) l, length (filter f l) <= length l.
Proof. intros A f. induction l as [|x l IH]; [reflexivity|]. cbn. destruct (f x); cbn; lia. Qed.

Lemma topo_spec : forall es kids, (forall a b, In (a, b) es -> In a kids /\ In b kids) -> forall fuel done stack,
  NoDup done -> (forall n, In n done \/ In n stack -> In n kids) -> ranked es done ->
  (forall n, In n stack -> forall a, In (a, n) es -> In a done) ->
  (forall n, In n kids -> (forall a, In (a, n) es -> In a done) -> In n done \/ In n stack) ->
  length stack + open_out es done <= fuel ->
  exists l, topo fuel es done stack = Some l /\ NoDup l /\ (forall n, In n l -> In n kids) /\ ranked es l /\
            (forall n, In n kids -> (forall a, In (a, n) es -> In a l) -> In n l).
Proof.
  intros es kids K. induction fuel as [|fuel IH]; intros done stack D S R T C F; destruct stack as [|n stack]; cbn [topo].
  - exists done. repeat (split; [auto|]). intros n I A. destruct (C n I A) as [J|[]]; exact J.
  - cbn [length] in F. lia.
  - exists done. repeat (split; [auto|]). intros n I A. destruct (C n I A) as [J|[]]; exact J.
  - cbn [length] in F. destruct (memN n done) eqn:E.
    + apply memN_iff in E. apply IH; [exact D| |exact R| | |lia].
      * intros m [I|I]; apply S; [now left|right; now right].
      * intros m I. apply T. now right.
      * intros m I A. destruct (C m I A) as [J|[<-|J]]; auto.
    + apply memN_false in E. pose proof (open_out_step es n done E) as OS.
      assert (LF : length (filter (fun m => forallb (fun p => memN p (n :: done)) (preds es m)) (succs es n)) <= length (succs es n))
        by apply filter_shorter.
      apply IH.
      * constructor; assumption.
      * intros m [[<-|I]|I]; [apply S; right; now left|apply S; now left|].
        apply in_app_iff in I. destruct I as [I|I]; [|apply S; right; now right].
        apply filter_In in I. destruct I as [I _]. apply in_succs in I. apply (K _ _ I).
      * apply ranked_cons; [exact R|]. apply T. now left.
      * intros m I a Ia. apply in_app_iff in I. destruct I as [I|I].
        -- apply filter_In in I. destruct I as [_ I]. rewrite forallb_forall in I. apply memN_iff. apply I. now apply in_preds.
        -- right. apply (T m); [now right|exact Ia].
      * intros m I A. destruct (memN m (n :: done)) eqn:Em; [left; now apply memN_iff|]. apply memN_false in Em.
        right. apply in_app_iff. destruct (in_dec N.eq_dec n (preds es m)) as [P|P].
        -- left. apply filter_In. split; [apply in_succs; now apply in_preds|]. apply forallb_forall. intros a Ia.
           apply memN_iff. apply A. now apply in_preds.
        -- right. destruct (C m I) as [J|[<-|J]].
           ++ intros a Ia. destruct (A a Ia) as [<-|J]; [|exact J]. exfalso. apply P. now apply in_preds.
           ++ exfalso. apply Em. now right.
           ++ exfalso. apply Em. now left.
           ++ exact J.
      * rewrite app_length. lia.
Qed.

Lemma before_rev : forall {A} (l : list A) a b, before l b a -> before (rev l) a b.
Proof.
  intros A l a b (l1 & l2 & l3 & ->). exists (rev l3), (rev l2), (rev l1).
  rewrite rev_app_distr. cbn [rev]. rewrite rev_app_distr. cbn [rev]. rewrite <- !app_assoc. reflexivity.
Qed.

Lemma topo_acyclic : forall es kids l, NoDup kids -> (forall a b, In (a, b) es -> In a kids /\ In b kids) ->
  NoDup l -> (forall n, In n l -> In n kids) -> ranked es l ->
  (forall n, In n kids -> (forall a, In (a, n) es -> In a l) -> In n l) ->
  length l = length kids <-> acyclic (edge_rel es).
Proof.
  intros es kids l NK K NL S R C. split.
  - intros L. assert (A : forall n, In n kids -> In n l) by (apply NoDup_length_incl; [exact NL|lia|exact S]).
    apply (before_acyclic N.eq_dec (rev l)); [now apply NoDup_rev|]. intros a b I. apply before_rev.
    destruct (K a b I) as [Ia Ib]. apply A, in_split in Ib. destruct Ib as (l1 & l2 & E). pose proof (R l1 b l2 E a I) as J.
    apply in_split in J. destruct J as (l3 & l4 & ->). subst l. now exists l1, l3, l4.
  - intros AC. assert (A : forall n, In n kids -> In n l).
    { destruct (filter (fun n => negb (memN n l)) kids) as [|x rest] eqn:E.
      - intros n I. destruct (memN n l) eqn:M; [now apply memN_iff|]. exfalso.
        assert (In n (filter (fun n => negb (memN n l)) kids)) by (apply filter_In; rewrite M; auto). rewrite E in H. destruct H.
      - exfalso. destruct (acyclic_source (x :: rest) (edge_rel es) (edge_rel_dec N.eq_dec es) AC) as (m & Im & P); [discriminate|].
        rewrite <- E in Im, P. apply filter_In in Im. destruct Im as [Im M]. apply negb_true_iff, memN_false in M. apply M.
        apply C; [exact Im|]. intros a Ia. destruct (memN a l) eqn:Ma; [now apply memN_iff|]. exfalso. apply (P a); [|exact Ia].
        apply filter_In. split; [apply (K _ _ Ia)|]. now rewrite Ma. }
    apply Nat.le_antisymm; apply NoDup_incl_length; assumption.
Qed.

Lemma acyclic_ext : forall {A} (E F : A -> A -> Prop), (forall a b, E a b <-> F a b) -> acyclic E <-> acyclic F.
Proof.
  intros A E F H. split; intros X a P; apply (X a); revert P; apply path_mono; intros x y; apply H.
Qed.

Section Graph.
  Context {M : Type}.
  Notation hugr := (hugr op M).
  Variable h : hugr.
  Hypothesis W : wf h.

  Lemma get_parent_eq : forall n, get_parent h n = h_parent h n.
  Proof.
    intros n. unfold get_parent, contains. destruct (memN n (h_nodes h)) eqn:E; cbn [andb].
    - destruct (N.eqb_spec n (h_root h)) as [->|Ne]; cbn [negb]; [|reflexivity]. symmetry. apply (wf_top h W).
    - apply memN_false in E. symmetry. apply (wf_unused h W n E).
  Qed.

  Lemma in_region : forall p a b, In (a, b) (region_edges h p) <-> sibling_edge h p a b.
  Proof.
    intros p a b. unfold region_edges, sibling_edge. rewrite in_map_iff. split.
    - intros ([[x i] [y j]] & E & I). cbn in E. injection E as -> ->. apply filter_In in I. cbn in I. destruct I as [I B].
      apply andb_true_iff in B. destruct B as [B1 B2]. apply memN_iff in B1, B2.
      split; [now apply (wf_kids h W)|]. split; [now apply (wf_kids h W)|]. eauto.
    - intros (A & B & i & j & I). exists ((a, i), (b, j)). split; [reflexivity|]. apply filter_In. split; [exact I|]. cbn.
      apply andb_true_iff. split; apply memN_iff; now apply (wf_kids h W).
  Qed.

  Lemma region_kids : forall p a b, In (a, b) (region_edges h p) -> In a (h_kids h p) /\ In b (h_kids h p).
  Proof. intros p a b I. apply in_region in I. destruct I as (A & B & _). split; now apply (wf_kids h W). Qed.

  Lemma topo_order_spec : forall p, exists l, topo_order h p = Some l /\
    (length l = length (h_kids h p) <-> acyclic (sibling_edge h p)).
  Proof.
    intros p. unfold topo_order. set (es := region_edges h p).
    destruct (topo_spec es (h_kids h p) (region_kids p) (length (h_kids h p) + length es) []
                (filter (fun n => match preds es n with [] => true | _ => false end) (h_kids h p))) as (l & E & NL & S & R & C).
    - constructor.
    - intros n [[]|I]. now apply filter_In in I.
    - intros [|x l1] n l2 E; discriminate.
    - intros n I a Ia. apply filter_In in I. destruct I as [_ I]. apply in_preds in Ia. destruct (preds es n); [destruct Ia|discriminate].
    - intros n I A. right. apply filter_In. split; [exact I|]. destruct (preds es n) as [|a l] eqn:E; [reflexivity|].
      exfalso. apply (A a). apply in_preds. rewrite E. now left.
    - unfold open_out. apply Nat.add_le_mono; apply filter_shorter.
    - exists l. split; [exact E|]. rewrite (topo_acyclic es (h_kids h p) l (wf_kids_once h W p) (region_kids p) NL S R C).
      apply acyclic_ext. intros a b. apply in_region.
  Qed.

  Lemma dag_iff : forall p, validate_children_dag h p = VOk <-> acyclic (sibling_edge h p).
  Proof.
    intros p. unfold validate_children_dag. destruct (topo_order_spec p) as (l & E & A). destruct (h_kids h p) as [|k ks] eqn:K.
    - split; [intros _|reflexivity]. intros x P. assert (N_ : forall a b, ~ sibling_edge h p a b).
      { intros a b (X & _). apply (wf_kids h W) in X. now rewrite K in X. }
      induction P as [a b S|]; [now apply N_ in S|assumption].
    - rewrite E, vcheck_ok, Nat.eqb_eq. exact A.
  Qed.

  (** ** Domination *)
  Definition passes (skip : option N) (n : N) : bool := match skip with Some s => negb (N.eqb n s) | None => true end.

  Lemma table_targets : forall p skip n m,
    In m (targets (reach_table h p skip) n) <-> sibling_edge h p n m /\ passes skip m = true.
  Proof.
    intros p skip n m. rewrite <- in_region, <- in_succs. pose proof (region_kids p n m) as K. rewrite <- in_succs in K.
    unfold reach_table. fold (passes skip).
    assert (T : forall ks, targets (map (fun n => (n, filter (passes skip) (succs (region_edges h p) n))) ks) n =
                           if memN n ks then filter (passes skip) (succs (region_edges h p) n) else []).
    { induction ks as [|k ks IH]; [reflexivity|]. cbn [map targets]. rewrite IH, memN_cons, (N.eqb_sym n k). now destruct (N.eqb_spec k n) as [->|]. }
    rewrite T. destruct (memN n (h_kids h p)) eqn:E; [apply filter_In|]. split; [easy|]. intros [I _]. apply memN_false in E.
    exfalso. apply E. now apply K.
  Qed.

  Lemma walk_snoc : forall (E : N -> N -> Prop) a l b c, walk E a l b -> E b c -> walk E a (l ++ [c]) c.
  Proof.
    intros E a l b c X F. induction X as [a|a b l d G X IH]; cbn.
    - eapply walk_step; [exact F|constructor].
    - eapply walk_step; [exact G|]. now apply IH.
  Qed.

  Lemma walk_ends : forall (E : N -> N -> Prop) a l b, walk E a l b -> In a l /\ In b l.
  Proof. intros E a l b X. induction X as [a|a b l c F X IH]; [split; now left|]. split; [now left|]. right. apply IH. Qed.

  Lemma from_walk : forall p skip e n, passes skip e = true ->
    from (targets (reach_table h p skip)) [e] n <-> exists l, walk (sibling_edge h p) e l n /\ forall x, In x l -> passes skip x = true.
  Proof.
    intros p skip e n Pe. split.
    - intros F. induction F as [n I|n m F (l & X & A) I].
      + destruct I as [->|[]]. exists [n]. split; [constructor|]. intros x [<-|[]]. exact Pe.
      + apply table_targets in I. destruct I as [S P]. exists (l ++ [m]). split; [eapply walk_snoc; eassumption|].
        intros x Ix. apply in_app_iff in Ix. destruct Ix as [Ix|[<-|[]]]; auto.
    - intros (l & X & A). assert (G : forall a, from (targets (reach_table h p skip)) [e] a -> walk (sibling_edge h p) a l n ->
          from (targets (reach_table h p skip)) [e] n).
      { clear X. revert A. induction l as [|y l IH]; intros A a Fa X; [inversion X|].
        inversion X as [x Ex1 Ex2 Ex3|x b l' c F X' Ex1 Ex2 Ex3]; subst; [exact Fa|].
        apply (IH (fun x Ix => A x (or_intror Ix)) b); [|exact X']. eapply from_next; [exact Fa|]. apply table_targets.
        split; [exact F|]. apply A. right. apply (walk_ends _ _ _ _ X'). }
      apply (G e); [|exact X]. apply from_start. now left.
  Qed.

  Lemma reached_spec : forall p skip e rest, h_kids h p = e :: rest -> exists l, reached h p skip = Some l /\
    forall n, In n l <-> exists w, walk (sibling_edge h p) e w n /\ forall x, In x w -> passes skip x = true.
  Proof.
    intros p skip e rest K. unfold reached. rewrite K. set (t := reach_table h p skip).
    change (fun n : N => match skip with Some s => negb (n =? s)%N | None => true end) with (passes skip).
    assert (ND : NoDup (map fst t)).
    { unfold t, reach_table. rewrite map_map. cbn [fst]. rewrite map_id. apply (wf_kids_once h W). }
    set (start := filter (passes skip) [e]).
    destruct (dfs_spec t start ND (length start + list_sum (map (fun x => length (snd x)) t)) [] start) as (l & E & H).
    - intros n [[]|I]. now apply from_start.
    - auto.
    - intros n m [].
    - apply Nat.add_le_mono_l. unfold open_edges. rewrite filter_all by reflexivity. reflexivity.
    - exists l. split; [exact E|]. intros n. rewrite H. unfold start. cbn [filter]. destruct (passes skip e) eqn:P; [now apply from_walk|].
      split.
      + intros F. exfalso. induction F as [n []|n m F IH I]. exact IH.
      + intros (w & X & A). apply walk_ends in X. destruct X as [X _]. apply A in X. congruence.
  Qed.

  Lemma dominated_iff : forall p d n, In n (h_kids h p) ->
    exists b, dominated h p d n = Some b /\ (b = true <-> dominates h p d n).
  Proof.
    intros p d n I. unfold dominated. destruct (h_kids h p) as [|e rest] eqn:K; [destruct I|].
    destruct (reached_spec p None e rest K) as (l1 & E1 & H1). destruct (reached_spec p (Some d) e rest K) as (l2 & E2 & H2).
    rewrite E1, E2. eexists. split; [reflexivity|]. rewrite andb_true_iff, orb_true_iff, negb_true_iff, memN_iff, memN_false, N.eqb_eq, H1, H2.
    unfold dominates. split.
    - intros [(w & X & _) D]. exists e, rest. split; [exact K|]. split; [eauto|]. intros l Xl.
      destruct D as [->|D]; [apply (walk_ends _ _ _ _ Xl)|]. destruct (in_dec N.eq_dec d l) as [Id|Nd]; [exact Id|]. exfalso. apply D.
      exists l. split; [exact Xl|]. intros x Ix. cbn. destruct (N.eqb_spec x d) as [->|]; [contradiction|reflexivity].
    - intros (e' & rest' & K' & (w & X) & A). rewrite K in K'. injection K' as <- <-. split.
      + exists w. split; [exact X|]. reflexivity.
      + right. intros (l & Xl & P). apply A in Xl. apply P in Xl. cbn in Xl. now rewrite N.eqb_refl in Xl.
  Qed.
End Graph.
