(** Removal of nodes and subtrees, links and ports. *)
From Coq Require Import List Bool NArith Arith Lia Permutation.
From Verif Require Import GraphModel GraphSpec GraphProofs.
Import ListNotations.

Section Graph.
  Context {O M : Type}.
  Variable o_default : O.
  Variable o_in o_out : O -> nat.
  Notation hugr := (hugr O M).

  Lemma valid_non_entry_iff : forall (h : hugr) n, valid_non_entry h n = true <-> In n (h_nodes h) /\ n <> h_entry h.
  Proof. intros h n. unfold valid_non_entry. rewrite andb_true_iff, negb_true_iff, N.eqb_neq, contains_iff. reflexivity. Qed.

  Lemma touches_false : forall n (l : link), touches n l = false <-> fst (fst l) <> n /\ fst (snd l) <> n.
  Proof. intros n l. unfold touches. rewrite orb_false_iff, !N.eqb_neq. reflexivity. Qed.

  (** ** What is left after removing the nodes [R], the children in [q] being detached *)
  Record removed (h0 : hugr) (top : N) (R q : list N) (h : hugr) : Prop := {
    rm_nodes : h_nodes h = filter (fun m => negb (memN m R)) (h_nodes h0);
    rm_ops : forall m, h_ops h m = if memN m R then o_default else h_ops h0 m;
    rm_meta : h_meta h = h_meta h0;
    rm_in : h_in h = h_in h0;
    rm_out : h_out h = h_out h0;
    rm_links : h_links h = filter (fun l => negb (memN (fst (fst l)) R || memN (fst (snd l)) R)) (h_links h0);
    rm_parent : forall m, h_parent h m = if memN m (R ++ q) then None else h_parent h0 m;
    rm_kids : forall m, h_kids h m = if memN m R then [] else delN top (h_kids h0 m);
    rm_root : h_root h = h_root h0;
    rm_entry : h_entry h = h_entry h0 }.

  Lemma filter_filter : forall A (f g : A -> bool) l, filter f (filter g l) = filter (fun x => g x && f x) l.
  Proof.
    intros A f g l. induction l as [|x l IH]; [reflexivity|]. cbn [filter]. destruct (g x); cbn [andb filter].
    - destruct (f x); now rewrite IH.
    - exact IH.
  Qed.

  Lemma memN_cons : forall m x l, memN m (x :: l) = N.eqb m x || memN m l.
  Proof. reflexivity. Qed.
  Lemma memN_app : forall m l k, memN m (l ++ k) = memN m l || memN m k.
  Proof. intros. unfold memN. apply existsb_app. Qed.

  (** Removing the first node. *)
  Lemma remove_first : forall (h h' : hugr) n, wf h -> remove_node o_default h n = Some h' ->
    removed h n [n] (h_kids h n) h'.
  Proof.
    intros h h' n W. unfold remove_node. destruct (valid_non_entry h n) eqn:V; [|discriminate].
    intros E. injection E as <-. apply valid_non_entry_iff in V. destruct V as [In_ Nn].
    destruct (detach_rest h n) as (R1 & R2 & R3 & R4 & R5 & R6 & R7 & R8).
    assert (Kn : h_kids (detach h n) n = h_kids h n).
    { rewrite (detach_kids h W). apply delN_id. intros I. apply (wf_kids h W) in I. apply (no_cycle h W n n I). constructor. }
    constructor; cbn [set_ops graph_remove tree_remove set_links set_nodes set_tree h_nodes h_ops h_meta h_in h_out h_links h_parent h_kids h_root h_entry]; auto.
    - rewrite R1. unfold delN. apply filter_ext. intros m. unfold memN. cbn [existsb]. now rewrite orb_false_r.
    - intros m. rewrite R2. unfold memN, upd. cbn [existsb]. now rewrite orb_false_r.
    - rewrite R6. apply filter_ext. intros l. unfold touches, memN. cbn [existsb]. now rewrite !orb_false_r.
    - intros m. rewrite Kn, memN_app. cbn [memN existsb]. rewrite detach_parent. unfold upd.
      fold (memN m (h_kids h n)). rewrite orb_false_r. destruct (N.eqb m n), (memN m (h_kids h n)); reflexivity.
    - intros m. unfold upd. cbn [memN existsb]. rewrite orb_false_r. destruct (N.eqb m n); [reflexivity|].
      apply (detach_kids h W).
  Qed.

  (** Removing a queued node (it has no parent any more). *)
  Lemma remove_next : forall (h0 h h' : hugr) top R x q, wf h0 ->
    removed h0 top R (x :: q) h -> ~ In x R -> ~ In top (h_kids h0 x) ->
    NoDup (R ++ x :: q) -> remove_node o_default h x = Some h' ->
    removed h0 top (x :: R) (q ++ h_kids h0 x) h'.
  Proof.
    intros h0 h h' top R x q W Rm Nx Nt D. unfold remove_node. destruct (valid_non_entry h x) eqn:V; [|discriminate].
    intros E. injection E as <-.
    assert (Px : h_parent h x = None).
    { rewrite (rm_parent _ _ _ _ _ Rm). replace (memN x (R ++ x :: q)) with true; [reflexivity|].
      symmetry. apply memN_iff. apply in_app_iff. right. now left. }
    assert (Dx : detach h x = h) by (unfold detach; now rewrite Px).
    assert (Kx : h_kids h x = h_kids h0 x).
    { rewrite (rm_kids _ _ _ _ _ Rm). apply memN_false in Nx. rewrite Nx. now apply delN_id. }
    unfold tree_remove. rewrite Dx, Kx.
    constructor; cbn [set_ops graph_remove set_links set_nodes set_tree h_nodes h_ops h_meta h_in h_out h_links h_parent h_kids h_root h_entry]; try apply Rm.
    - rewrite (rm_nodes _ _ _ _ _ Rm). unfold delN. rewrite filter_filter. apply filter_ext. intros m.
      rewrite memN_cons, negb_orb. apply andb_comm.
    - intros m. rewrite memN_cons. unfold upd. rewrite (rm_ops _ _ _ _ _ Rm). destruct (N.eqb m x); reflexivity.
    - rewrite (rm_links _ _ _ _ _ Rm), filter_filter. apply filter_ext. intros [[s i] [t j]]. unfold touches. cbn [fst snd].
      rewrite !memN_cons, !negb_orb. destruct (N.eqb s x), (memN s R), (N.eqb t x), (memN t R); reflexivity.
    - intros m. rewrite (rm_parent _ _ _ _ _ Rm). cbn [app]. rewrite memN_cons, !memN_app, memN_cons.
      destruct (memN m (h_kids h0 x)), (N.eqb m x), (memN m R), (memN m q); reflexivity.
    - intros m. unfold upd. rewrite memN_cons. destruct (N.eqb m x); [reflexivity|]. apply (rm_kids _ _ _ _ _ Rm).
  Qed.

  (** Only nodes that exist and are not the entrypoint can be removed. *)
  Lemma remove_node_iff : forall (h : hugr) n,
    (exists h', remove_node o_default h n = Some h') <-> In n (h_nodes h) /\ n <> h_entry h.
  Proof.
    intros h n. unfold remove_node. rewrite <- valid_non_entry_iff. destruct (valid_non_entry h n); split; eauto.
    - intros (h' & E). discriminate.
    - discriminate.
  Qed.

  (** ** The loop of [remove_subtree] *)
  Record sweep (h0 : hugr) (n : N) (R q : list N) : Prop := {
    sw_top : In n R;
    sw_below : forall m, In m (R ++ q) -> up (h_parent h0) m n;
    sw_nodup : NoDup (R ++ q);
    sw_closed : forall m c, In m R -> In c (h_kids h0 m) -> In c (R ++ q);
    sw_parent : forall m, In m (R ++ q) -> m = n \/ exists p, h_parent h0 m = Some p /\ In p R }.

  Lemma sweep_step : forall (h0 : hugr), wf h0 -> forall n R x q, In n (h_nodes h0) -> sweep h0 n R (x :: q) ->
    sweep h0 n (x :: R) (q ++ h_kids h0 x).
  Proof.
    intros h0 W n R x q In_ S.
    assert (Pm : Permutation ((x :: R) ++ q ++ h_kids h0 x) ((R ++ x :: q) ++ h_kids h0 x)).
    { rewrite app_assoc. apply Permutation_app_tail. cbn [app]. apply Permutation_middle. }
    assert (Dx : NoDup (R ++ x :: q)) by apply (sw_nodup _ _ _ _ S).
    assert (Nx : ~ In x R).
    { intros I. apply (NoDup_remove_2 _ _ _ Dx). apply in_app_iff. now left. }
    constructor.
    - right. apply (sw_top _ _ _ _ S).
    - intros m I. apply (Permutation_in _ Pm) in I. apply in_app_iff in I. destruct I as [I|I]; [now apply (sw_below _ _ _ _ S)|].
      apply (wf_kids h0 W) in I. eapply up_next; [exact I|]. apply (sw_below _ _ _ _ S). apply in_app_iff. right. now left.
    - apply (Permutation_NoDup (Permutation_sym Pm)). apply NoDup_nth_error.
      assert (G : NoDup ((R ++ x :: q) ++ h_kids h0 x)).
      { assert (Dis : forall c, In c (R ++ x :: q) -> ~ In c (h_kids h0 x)).
        { intros c I K. apply (wf_kids h0 W) in K. destruct (sw_parent _ _ _ _ S c I) as [->|(p & Ep & IpR)].
          - apply (no_cycle h0 W n x K). apply (sw_below _ _ _ _ S). apply in_app_iff. right. now left.
          - congruence. }
        revert Dis. generalize (R ++ x :: q) Dx. clear - W. intros l D. induction D as [|y l Ny D IH]; intros Dis.
        - apply (wf_kids_once h0 W).
        - cbn [app]. constructor.
          + rewrite in_app_iff. intros [I|I]; [auto|]. apply (Dis y); [now left|exact I].
          + apply IH. intros c I. apply Dis. now right. }
      now apply NoDup_nth_error.
    - intros m c [->|I] K; apply (Permutation_in _ (Permutation_sym Pm)); apply in_app_iff.
      + now right.
      + left. eapply (sw_closed _ _ _ _ S); eauto.
    - intros m I. apply (Permutation_in _ Pm) in I. apply in_app_iff in I. destruct I as [I|I].
      + destruct (sw_parent _ _ _ _ S m I) as [->|(p & Ep & IpR)]; [now left|]. right. exists p. split; [exact Ep|now right].
      + right. exists x. split; [now apply (wf_kids h0 W)|now left].
  Qed.

  Lemma sweep_live : forall (h0 : hugr), wf h0 -> forall n R q, In n (h_nodes h0) -> sweep h0 n R q ->
    forall m, In m (R ++ q) -> In m (h_nodes h0).
  Proof.
    intros h0 W n R q In_ S m I. destruct (sw_parent _ _ _ _ S m I) as [->|(p & Ep & _)]; [exact In_|].
    apply (wf_parent_live h0 W m p Ep).
  Qed.

  Lemma sweep_done : forall (h0 : hugr), wf h0 -> forall n R, sweep h0 n R [] -> forall m, In m R <-> up (h_parent h0) m n.
  Proof.
    intros h0 W n R S m. split.
    - intros I. apply (sw_below _ _ _ _ S). now rewrite app_nil_r.
    - intros U. induction U as [n|m p n E U IH]; [apply (sw_top _ _ _ _ S)|].
      pose proof (sw_closed _ _ _ _ S p m (IH S) (proj2 (wf_kids h0 W p m) E)) as I. now rewrite app_nil_r in I.
  Qed.

  Lemma remove_all_spec : forall (h0 : hugr), wf h0 -> forall n, In n (h_nodes h0) ->
    forall fuel q R h, sweep h0 n R q -> removed h0 n R q h -> length (h_nodes h0) <= fuel + length R ->
    (forall h', remove_all o_default fuel h q = Some h' ->
       exists R', removed h0 n R' [] h' /\ (forall m, In m R' <-> up (h_parent h0) m n) /\ incl R R') /\
    ((forall m, In m (h_nodes h0) -> up (h_parent h0) m n -> m <> h_entry h0) ->
       exists h', remove_all o_default fuel h q = Some h').
  Proof.
    intros h0 W n In_. induction fuel as [|fuel IH]; intros q R h S Rm L.
    - destruct q as [|x q].
      + cbn [remove_all]. split; [|eauto]. intros h' E. injection E as <-. exists R. split; [exact Rm|].
        split; [now apply sweep_done|apply incl_refl].
      + exfalso. assert (length (R ++ x :: q) <= length (h_nodes h0)).
        { apply NoDup_incl_length; [apply (sw_nodup _ _ _ _ S)|]. intros m I. eapply sweep_live; eauto. }
        rewrite app_length in H. cbn [length] in H. lia.
    - destruct q as [|x q]; cbn [remove_all].
      + split; [|eauto]. intros h' E. injection E as <-. exists R. split; [exact Rm|].
        split; [now apply sweep_done|apply incl_refl].
      + assert (Dx : NoDup (R ++ x :: q)) by apply (sw_nodup _ _ _ _ S).
        assert (Nx : ~ In x R).
        { intros I. apply (NoDup_remove_2 _ _ _ Dx). apply in_app_iff. now left. }
        assert (Ix : In x (R ++ x :: q)) by (apply in_app_iff; right; now left).
        assert (Ux : up (h_parent h0) x n) by (apply (sw_below _ _ _ _ S); exact Ix).
        assert (Nt : ~ In n (h_kids h0 x)).
        { intros K. apply (wf_kids h0 W) in K. exact (no_cycle h0 W n x K Ux). }
        assert (Kx : h_kids h x = h_kids h0 x).
        { rewrite (rm_kids _ _ _ _ _ Rm). apply memN_false in Nx. rewrite Nx. now apply delN_id. }
        rewrite Kx. pose proof (sweep_step h0 W n R x q In_ S) as S'. split.
        * intros h' E. destruct (remove_node o_default h x) as [h1|] eqn:E1; [|discriminate].
          pose proof (remove_next h0 h h1 n R x q W Rm Nx Nt Dx E1) as Rm'.
          destruct (IH (q ++ h_kids h0 x) (x :: R) h1 S' Rm') as [A _]; [cbn [length]; lia|].
          destruct (A h' E) as (R' & X & Y & Z). exists R'. split; [exact X|]. split; [exact Y|].
          intros m I. apply Z. now right.
        * intros NE. assert (Lx : In x (h_nodes h0)) by (exact (sweep_live h0 W n R (x :: q) In_ S x Ix)).
          destruct (proj2 (remove_node_iff h x)) as (h1 & E1).
          { split.
            - rewrite (rm_nodes _ _ _ _ _ Rm). apply filter_In. split; [exact Lx|]. apply memN_false in Nx. now rewrite Nx.
            - rewrite (rm_entry _ _ _ _ _ Rm). now apply NE. }
          rewrite E1. pose proof (remove_next h0 h h1 n R x q W Rm Nx Nt Dx E1) as Rm'.
          destruct (IH (q ++ h_kids h0 x) (x :: R) h1 S' Rm') as [_ B]; [cbn [length]; lia|]. now apply B.
  Qed.

  Lemma remove_first_sweep : forall (h : hugr), wf h -> forall n, In n (h_nodes h) -> sweep h n [n] (h_kids h n).
  Proof.
    intros h W n In_. constructor.
    - now left.
    - intros m [<-|I]; [constructor|]. cbn in I. apply (wf_kids h W) in I. eapply up_next; [exact I|constructor].
    - cbn. constructor; [|apply (wf_kids_once h W)]. intros I. apply (wf_kids h W) in I. apply (no_cycle h W n n I). constructor.
    - intros m c [<-|[]] K. now right.
    - intros m [<-|I]; [now left|]. right. exists n. split; [now apply (wf_kids h W)|now left].
  Qed.

  Lemma remove_subtree_spec : forall (h : hugr), wf h -> forall n,
    (forall h', remove_subtree o_default h n = Some h' ->
       In n (h_nodes h) /\ exists R, removed h n R [] h' /\ (forall m, In m R <-> up (h_parent h) m n)) /\
    (In n (h_nodes h) -> ~ up (h_parent h) (h_entry h) n -> exists h', remove_subtree o_default h n = Some h').
  Proof.
    intros h W n. unfold remove_subtree. destruct (h_nodes h) as [|z zs] eqn:Z.
    { exfalso. pose proof (wf_root h W) as X. now rewrite Z in X. }
    assert (Len : length (h_nodes h) = S (length zs)) by (rewrite Z; reflexivity).
    rewrite <- Z in *. rewrite Len. cbn [remove_all]. split.
    - intros h' E. destruct (valid_non_entry h n) eqn:V; [|discriminate]. apply valid_non_entry_iff in V. destruct V as [In_ _].
      split; [exact In_|]. destruct (remove_node o_default h n) as [h1|] eqn:E1; [|discriminate].
      pose proof (remove_first h h1 n W E1) as Rm. cbn [app] in E.
      destruct (remove_all_spec h W n In_ (length zs) (h_kids h n) [n] h1 (remove_first_sweep h W n In_) Rm) as [A _].
      { cbn [length]. lia. }
      destruct (A h' E) as (R & X & Y & _). eauto.
    - intros In_ NE. assert (NN : n <> h_entry h) by (intros ->; apply NE; constructor).
      rewrite (proj2 (valid_non_entry_iff h n)) by auto.
      destruct (proj2 (remove_node_iff h n)) as (h1 & E1); [auto|]. rewrite E1.
      pose proof (remove_first h h1 n W E1) as Rm. cbn [app].
      destruct (remove_all_spec h W n In_ (length zs) (h_kids h n) [n] h1 (remove_first_sweep h W n In_) Rm) as [_ B].
      { cbn [length]. lia. }
      apply B. intros m _ U ->. contradiction.
  Qed.

  Lemma remove_subtree_entry : forall (h h' : hugr), wf h -> forall n, remove_subtree o_default h n = Some h' ->
    ~ up (h_parent h) (h_entry h) n.
  Proof.
    intros h h' W n E U. destruct (remove_subtree_spec h W n) as [A _]. destruct (A h' E) as (In_ & R & Rm & HR).
    (** the entrypoint is never removed: follow the loop *)
    assert (G : forall fuel (h : hugr) q h', remove_all o_default fuel h q = Some h' -> In (h_entry h) (h_nodes h) ->
                In (h_entry h) (h_nodes h') /\ h_entry h' = h_entry h).
    { clear. induction fuel as [|fuel IH]; intros h q h'; destruct q as [|x q]; cbn [remove_all]; try discriminate.
      - intros E. injection E as <-. auto.
      - intros E. injection E as <-. auto.
      - destruct (remove_node o_default h x) as [h1|] eqn:E1; [|discriminate]. intros E I.
        assert (X : In (h_entry h1) (h_nodes h1) /\ h_entry h1 = h_entry h).
        { unfold remove_node in E1. destruct (valid_non_entry h x) eqn:V; [|discriminate]. injection E1 as <-.
          apply valid_non_entry_iff in V. cbn. rewrite !(proj1 (detach_rest h x)).
          destruct (detach_rest h x) as (_ & _ & _ & _ & _ & _ & _ & R8). rewrite R8. split; [|reflexivity].
          apply delN_iff. split; [exact I|]. intros X. apply (proj2 V). now symmetry. }
        destruct X as [X1 X2]. rewrite <- X2. now apply (IH h1 (q ++ h_kids h x)). }
    unfold remove_subtree in E. destruct (valid_non_entry h n); [|discriminate].
    destruct (G _ _ _ _ E (wf_entry h W)) as [X _]. rewrite (rm_nodes _ _ _ _ _ Rm) in X. apply filter_In in X.
    destruct X as [_ X]. apply negb_true_iff, memN_false in X. apply X. now apply HR.
  Qed.

  (** What is left is well formed if the removed set is a whole subtree without root and entrypoint. *)
  Lemma removed_wf : forall (h h' : hugr) n R, wf h -> removed h n R [] h' ->
    (forall m, In m R <-> up (h_parent h) m n) -> n <> h_root h -> ~ In (h_entry h) R -> wf h'.
  Proof.
    intros h h' n R W Rm HR Nr NE.
    assert (NR : ~ In (h_root h) R).
    { rewrite HR. intros U. apply (up_root h W) in U. congruence. }
    assert (Live : forall m, In m (h_nodes h') <-> In m (h_nodes h) /\ ~ In m R).
    { intros m. rewrite (rm_nodes _ _ _ _ _ Rm), filter_In, negb_true_iff, memN_false. reflexivity. }
    assert (Par : forall m, ~ In m R -> h_parent h' m = h_parent h m).
    { intros m I. rewrite (rm_parent _ _ _ _ _ Rm), app_nil_r. apply memN_false in I. now rewrite I. }
    assert (ParR : forall m, In m R -> h_parent h' m = None).
    { intros m I. rewrite (rm_parent _ _ _ _ _ Rm), app_nil_r. apply memN_iff in I. now rewrite I. }
    assert (UpR : forall m p, h_parent h m = Some p -> ~ In m R -> ~ In p R).
    { intros m p E I IpR. apply I. apply HR. apply HR in IpR. eapply up_next; eauto. }
    constructor.
    - rewrite (rm_nodes _ _ _ _ _ Rm). apply NoDup_filter, (wf_nodup h W).
    - rewrite (rm_root _ _ _ _ _ Rm). apply Live. split; [apply (wf_root h W)|exact NR].
    - rewrite (rm_entry _ _ _ _ _ Rm). apply Live. split; [apply (wf_entry h W)|exact NE].
    - rewrite (rm_root _ _ _ _ _ Rm), Par by exact NR. apply (wf_top h W).
    - rewrite (rm_root _ _ _ _ _ Rm). intros m I Nm. apply Live in I. destruct I as [I NI]. rewrite Par by exact NI.
      destruct (wf_parent h W m I Nm) as (p & Ep & Ip). exists p. split; [exact Ep|]. apply Live. split; [exact Ip|]. eauto.
    - intros p c. rewrite (rm_kids _ _ _ _ _ Rm). destruct (memN p R) eqn:Mp.
      + apply memN_iff in Mp. split; [intros []|]. intros E. exfalso. destruct (in_dec N.eq_dec c R) as [I|I].
        * rewrite ParR in E by exact I. discriminate.
        * rewrite Par in E by exact I. exact (UpR c p E I Mp).
      + apply memN_false in Mp. rewrite delN_iff, (wf_kids h W). split.
        * intros [E Nc]. rewrite Par; [exact E|]. intros I. apply HR in I. inversion I as [x|x q y Eq U]; subst; [congruence|].
          rewrite E in Eq. injection Eq as <-. apply Mp. now apply HR.
        * intros E. destruct (in_dec N.eq_dec c R) as [I|I]; [rewrite ParR in E by exact I; discriminate|].
          rewrite Par in E by exact I. split; [exact E|]. intros ->. apply I. apply HR. constructor.
    - intros p. rewrite (rm_kids _ _ _ _ _ Rm). destruct (memN p R); [constructor|]. apply delN_nodup, (wf_kids_once h W).
    - intros m I. destruct (in_dec N.eq_dec m R) as [IR|IR].
      + split; [now apply ParR|]. rewrite (rm_kids _ _ _ _ _ Rm). apply memN_iff in IR. now rewrite IR.
      + assert (Im : ~ In m (h_nodes h)) by (intros X; apply I; apply Live; auto).
        destruct (wf_unused h W m Im) as [U1 U2]. split; [rewrite Par by exact IR; exact U1|].
        rewrite (rm_kids _ _ _ _ _ Rm). apply memN_false in IR. now rewrite IR, U2.
    - intros m I. apply Live in I. destruct I as [I NI]. rewrite (rm_root _ _ _ _ _ Rm).
      pose proof (wf_reach h W m I) as U. clear I. revert NI.
      assert (G : forall a b, up (h_parent h) a b -> ~ In a R -> up (h_parent h') a b).
      { intros a b V. induction V as [a|a p b E V IH]; intros NI; [constructor|].
        eapply up_next; [rewrite Par by exact NI; exact E|]. apply IH. eauto. }
      now apply G.
    - intros l I. rewrite (rm_links _ _ _ _ _ Rm) in I. apply filter_In in I. destruct I as [I X].
      rewrite negb_orb, andb_true_iff, !negb_true_iff, !memN_false in X. destruct X as [X1 X2].
      destruct (wf_links h W l I) as [[A B] [C D]]. unfold out_port, in_port. rewrite (rm_in _ _ _ _ _ Rm), (rm_out _ _ _ _ _ Rm), !Live. auto.
  Qed.

  Lemma remove_subtree_wf : forall (h h' : hugr) n, wf h -> remove_subtree o_default h n = Some h' -> wf h'.
  Proof.
    intros h h' n W E. pose proof (remove_subtree_entry h h' W n E) as NE.
    destruct (remove_subtree_spec h W n) as [A _]. destruct (A h' E) as (In_ & R & Rm & HR).
    eapply (removed_wf h h' n R W Rm HR).
    - intros ->. apply NE. apply (wf_reach h W). apply (wf_entry h W).
    - rewrite HR. exact NE.
  Qed.

  Lemma remove_leaf_wf : forall (h h' : hugr) n, wf h -> n <> h_root h -> h_kids h n = [] ->
    remove_node o_default h n = Some h' -> wf h'.
  Proof.
    intros h h' n W Nr K E. pose proof (remove_first h h' n W E) as Rm. rewrite K in Rm.
    assert (V : In n (h_nodes h) /\ n <> h_entry h) by (apply remove_node_iff; eauto).
    eapply (removed_wf h h' n [n] W Rm); [|exact Nr|].
    - intros m. split.
      + intros [<-|[]]. constructor.
      + intros U. induction U as [n|m p n Em U IH]; [now left|]. exfalso. destruct (IH Nr K E Rm V) as [<-|[]].
        apply (wf_kids h W) in Em. now rewrite K in Em.
    - intros [X|[]]. apply (proj2 V). exact X.
  Qed.

  (** ** Links and ports *)
  Lemma links_wf : forall (h : hugr) ls i o, wf h ->
    (forall l, In l ls -> In (fst (fst l)) (h_nodes h) /\ snd (fst l) < o (fst (fst l)) /\
                          In (fst (snd l)) (h_nodes h) /\ snd (snd l) < i (fst (snd l))) ->
    wf (set_links (set_ports h i o) ls).
  Proof.
    intros h ls i o W H. destruct W. constructor; cbn; auto.
    intros l I. destruct (H l I) as (A & B & C & D). unfold out_port, in_port. cbn. auto.
  Qed.

  Lemma links_only_wf : forall (h : hugr) ls, wf h -> (forall l, In l ls -> out_port h (fst l) /\ in_port h (snd l)) ->
    wf (set_links h ls).
  Proof. intros h ls W H. destruct W. constructor; cbn; auto. Qed.

  Lemma valid_port_out : forall (h : hugr) n i, valid_port h n Out i = true <-> out_port h (n, i).
  Proof. intros h n i. unfold valid_port, out_port. cbn [num_ports fst snd]. rewrite andb_true_iff, contains_iff, Nat.ltb_lt. reflexivity. Qed.
  Lemma valid_port_in : forall (h : hugr) n i, valid_port h n Inc i = true <-> in_port h (n, i).
  Proof. intros h n i. unfold valid_port, in_port. cbn [num_ports fst snd]. rewrite andb_true_iff, contains_iff, Nat.ltb_lt. reflexivity. Qed.

  Lemma connect_wf : forall (h h' : hugr) s i d j, wf h -> connect h s i d j = Some h' -> wf h'.
  Proof.
    intros h h' s i d j W. unfold connect. destruct (valid_port h s Out i) eqn:A; [|discriminate].
    destruct (valid_port h d Inc j) eqn:B; [|discriminate]. apply valid_port_out in A. apply valid_port_in in B.
    cbn [andb]. intros E. injection E as <-. apply links_only_wf; [exact W|]. intros l I. apply in_app_iff in I.
    destruct I as [I|[<-|[]]]; [apply (wf_links h W l I)|]. auto.
  Qed.

  Lemma disconnect_wf : forall (h h' : hugr) n d i, wf h -> disconnect h n d i = Some h' -> wf h'.
  Proof.
    intros h h' n d i W. unfold disconnect. destruct (valid_port h n d i); [|discriminate]. intros E. injection E as <-.
    apply links_only_wf; [exact W|]. intros l I. apply filter_In in I. apply (wf_links h W l (proj1 I)).
  Qed.

  Lemma set_num_ports_wf : forall (h h' : hugr) n i o, wf h -> set_num_ports h n i o = Some h' -> wf h'.
  Proof.
    intros h h' n i o W. unfold set_num_ports. destruct (contains h n); [|discriminate]. intros E. injection E as <-.
    apply links_wf; [exact W|]. intros l I. apply filter_In in I. destruct I as [I K].
    destruct (wf_links h W l I) as [[A B] [C D]]. apply andb_true_iff in K. destruct K as [K1 K2].
    rewrite negb_true_iff, andb_false_iff in K1, K2. rewrite N.eqb_neq, Nat.leb_gt in K1, K2.
    split; [exact A|]. split; [|split; [exact C|]].
    - unfold upd. destruct (N.eqb_spec (fst (fst l)) n); [|exact B]. destruct K1; [contradiction|assumption].
    - unfold upd. destruct (N.eqb_spec (fst (snd l)) n); [|exact D]. destruct K2; [contradiction|assumption].
  Qed.

  (** Moving ports up: endpoints from [k] on are shifted. *)
  Definition shift (n : N) (d : dir) (k a : nat) (l : link) : link :=
    match d with
    | Inc => if N.eqb (fst (snd l)) n && Nat.leb k (snd (snd l)) then (fst l, (n, snd (snd l) + a)) else l
    | Out => if N.eqb (fst (fst l)) n && Nat.leb k (snd (fst l)) then ((n, snd (fst l) + a), snd l) else l
    end.

  Lemma perm_split : forall A (p : A -> bool) (f : A -> A) l,
    Permutation (filter (fun x => negb (p x)) l ++ map f (filter p l)) (map (fun x => if p x then f x else x) l).
  Proof.
    intros A p f l. induction l as [|x l IH]; [constructor|]. cbn [filter map]. destruct (p x); cbn [negb map app].
    - apply Permutation_sym. apply Permutation_cons_app. now apply Permutation_sym.
    - now constructor.
  Qed.

  Lemma move_port_perm : forall n d p a ls, Permutation (move_port n d p (p + a) (map (shift n d (S p) a) ls)) (map (shift n d p a) ls).
  Proof.
    intros n d p a ls. unfold move_port. eapply Permutation_trans.
    { apply (perm_split link (at_port n d p)). }
    rewrite map_map. apply Permutation_refl'. apply map_ext. intros [[s i] [t j]].
    destruct d; unfold shift, at_port, ep_eqb; cbn [fst snd].
    - destruct (N.eqb_spec t n) as [->|Ne]; cbn [andb].
      + destruct (Nat.leb_spec (S p) j); destruct (Nat.leb_spec p j); cbn [fst snd]; rewrite ?N.eqb_refl; cbn [andb]; try lia.
        * destruct (Nat.eqb_spec (j + a) p); [lia|reflexivity].
        * destruct (Nat.eqb_spec j p); [subst; reflexivity|lia].
        * destruct (Nat.eqb_spec j p); [lia|reflexivity].
      + cbn [fst snd]. apply N.eqb_neq in Ne. rewrite Ne. reflexivity.
    - destruct (N.eqb_spec s n) as [->|Ne]; cbn [andb].
      + destruct (Nat.leb_spec (S p) i); destruct (Nat.leb_spec p i); cbn [fst snd]; rewrite ?N.eqb_refl; cbn [andb]; try lia.
        * destruct (Nat.eqb_spec (i + a) p); [lia|reflexivity].
        * destruct (Nat.eqb_spec i p); [subst; reflexivity|lia].
        * destruct (Nat.eqb_spec i p); [lia|reflexivity].
      + cbn [fst snd]. apply N.eqb_neq in Ne. rewrite Ne. reflexivity.
  Qed.

  Lemma filter_perm : forall A (p : A -> bool) l k, Permutation l k -> Permutation (filter p l) (filter p k).
  Proof.
    intros A p l k P. induction P; cbn [filter]; auto.
    - destruct (p x); auto.
    - destruct (p x), (p y); auto. constructor.
    - eapply Permutation_trans; eauto.
  Qed.

  Lemma move_port_morph : forall n d p q l k, Permutation l k -> Permutation (move_port n d p q l) (move_port n d p q k).
  Proof.
    intros. unfold move_port. apply Permutation_app; [now apply filter_perm|]. apply Permutation_map. now apply filter_perm.
  Qed.

  Lemma move_ports_perm : forall n d a ls index len ls', Permutation ls' (map (shift n d (index + len) a) ls) ->
    Permutation (fold_left (fun ls p => move_port n d p (p + a) ls) (rev (seq index len)) ls') (map (shift n d index a) ls).
  Proof.
    intros n d a ls index len. revert index. induction len as [|len IH]; intros index ls' P.
    - cbn. rewrite Nat.add_0_r in P. exact P.
    - rewrite seq_S, rev_app_distr. cbn [rev app fold_left]. apply IH.
      eapply Permutation_trans; [|apply move_port_perm]. apply move_port_morph.
      replace (S (index + len)) with (index + S len) by lia. exact P.
  Qed.

  Definition ports_grown (h : hugr) (n : N) (d : dir) (a : nat) : hugr :=
    match d with
    | Inc => set_ports h (upd (h_in h) n (h_in h n + a)) (h_out h)
    | Out => set_ports h (h_in h) (upd (h_out h) n (h_out h n + a))
    end.

  Lemma insert_ports_spec : forall (h h' : hugr) n d index a, wf h -> insert_ports h n d index a = Some h' ->
    In n (h_nodes h) /\ Permutation (h_links h') (map (shift n d index a) (h_links h)) /\
    h_nodes h' = h_nodes h /\ h_ops h' = h_ops h /\ h_meta h' = h_meta h /\ h_parent h' = h_parent h /\
    h_kids h' = h_kids h /\ h_root h' = h_root h /\ h_entry h' = h_entry h /\
    (forall m, h_in h' m = h_in h m + (if N.eqb m n then match d with Inc => a | Out => 0 end else 0)) /\
    (forall m, h_out h' m = h_out h m + (if N.eqb m n then match d with Inc => 0 | Out => a end else 0)).
  Proof.
    intros h h' n d index a W. unfold insert_ports. destruct (contains h n) eqn:C; [|discriminate].
    unfold add_ports, set_num_ports. rewrite C. apply contains_iff in C. intros E.
    assert (K : forall i o, h_in h n <= i -> h_out h n <= o ->
      filter (fun l : link => negb (N.eqb (fst (fst l)) n && Nat.leb o (snd (fst l))) &&
                              negb (N.eqb (fst (snd l)) n && Nat.leb i (snd (snd l)))) (h_links h) = h_links h).
    { intros i o Li Lo. rewrite <- (app_nil_r (h_links h)) at 2. rewrite app_nil_r.
      assert (G : forall ls, incl ls (h_links h) ->
        filter (fun l : link => negb (N.eqb (fst (fst l)) n && Nat.leb o (snd (fst l))) &&
                              negb (N.eqb (fst (snd l)) n && Nat.leb i (snd (snd l)))) ls = ls).
      { induction ls as [|l ls IH]; [reflexivity|]. intros Inc_. cbn [filter].
        destruct (wf_links h W l (Inc_ l (or_introl eq_refl))) as [[A B] [A' B']].
        replace (negb (N.eqb (fst (fst l)) n && Nat.leb o (snd (fst l)))) with true.
        2:{ symmetry. rewrite negb_true_iff, andb_false_iff, Nat.leb_gt. destruct (N.eqb_spec (fst (fst l)) n) as [X|]; [right|now left].
            rewrite X in B. lia. }
        replace (negb (N.eqb (fst (snd l)) n && Nat.leb i (snd (snd l)))) with true.
        2:{ symmetry. rewrite negb_true_iff, andb_false_iff, Nat.leb_gt. destruct (N.eqb_spec (fst (snd l)) n) as [X|]; [right|now left].
            rewrite X in B'. lia. }
        cbn [andb]. f_equal. apply IH. intros x I. apply Inc_. now right. }
      apply G. apply incl_refl. }
    assert (Sh : forall k, num_ports h n d <= k -> map (shift n d k a) (h_links h) = h_links h).
    { intros k L. rewrite <- (map_id (h_links h)) at 2. apply map_ext_in. intros l I.
      destruct (wf_links h W l I) as [[A B] [A' B']]. unfold shift. destruct d; cbn [num_ports] in L.
      - destruct (N.eqb_spec (fst (snd l)) n) as [X|]; cbn [andb]; [|reflexivity]. rewrite X in B'.
        destruct (Nat.leb_spec k (snd (snd l))); [lia|reflexivity].
      - destruct (N.eqb_spec (fst (fst l)) n) as [X|]; cbn [andb]; [|reflexivity]. rewrite X in B.
        destruct (Nat.leb_spec k (snd (fst l))); [lia|reflexivity]. }
    split; [exact C|].
    assert (P : Permutation (fold_left (fun ls p => move_port n d p (p + a) ls) (rev (seq index (num_ports h n d - index))) (h_links h))
                            (map (shift n d index a) (h_links h))).
    { apply move_ports_perm. rewrite Sh by lia. apply Permutation_refl. }
    destruct d; cbn [option_map num_ports] in *; injection E as <-;
      cbn [set_links set_ports h_links h_nodes h_ops h_meta h_parent h_kids h_root h_entry h_in h_out];
      rewrite !K by lia; (split; [exact P|]); repeat (split; [reflexivity|]); split; intros m; unfold upd;
      destruct (N.eqb_spec m n) as [->|]; lia.
  Qed.

  Lemma insert_ports_wf : forall (h h' : hugr) n d index a, wf h -> insert_ports h n d index a = Some h' -> wf h'.
  Proof.
    intros h h' n d index a W E. apply insert_ports_spec in E; [|exact W].
    destruct E as (C & P & E1 & E2 & E3 & E4 & E5 & E6 & E7 & HI & HO).
    pose proof W as W0. destruct W0 as [w1 w2 w3 w4 w5 w6 w7 w8 w9 w10]. constructor; rewrite ?E1, ?E4, ?E5, ?E6, ?E7; auto.
    intros l I. apply (Permutation_in _ P) in I. apply in_map_iff in I. destruct I as (l0 & <- & I).
    destruct (wf_links h W l0 I) as [[A B] [A' B']]. unfold out_port, in_port. rewrite E1, HI, HO. unfold shift.
    destruct d.
    - destruct (N.eqb_spec (fst (snd l0)) n) as [X|X]; cbn [andb].
      + destruct (Nat.leb index (snd (snd l0))); cbn [fst snd].
        * split; [split; [exact A|lia]|]. split; [exact C|]. rewrite N.eqb_refl. rewrite X in B'. lia.
        * split; (split; [assumption|lia]).
      + split; (split; [assumption|lia]).
    - destruct (N.eqb_spec (fst (fst l0)) n) as [X|X]; cbn [andb].
      + destruct (Nat.leb index (snd (fst l0))); cbn [fst snd].
        * split; [split; [exact C|rewrite N.eqb_refl; rewrite X in B; lia]|]. split; [exact A'|lia].
        * split; (split; [assumption|lia]).
      + split; (split; [assumption|lia]).
  Qed.

  (** ** All mutators *)
  Lemma step_wf : forall (h h' : hugr) a, wf h -> legal h a -> step o_default o_in o_out h a = Some h' -> wf h'.
  Proof.
    intros h h' a W L E. destruct a; cbn [step legal] in *.
    - eapply add_child_wf; eauto.
    - eapply add_beside_wf; eauto.
    - destruct L. eapply remove_leaf_wf; eauto.
    - eapply remove_subtree_wf; eauto.
    - eapply connect_wf; eauto.
    - eapply disconnect_wf; eauto.
    - unfold set_entrypoint in E. destruct (contains h n) eqn:C; [|discriminate]. injection E as <-.
      apply contains_iff in C. destruct W. constructor; cbn; auto.
    - eapply set_parent_wf; eauto.
    - eapply move_sibling_wf; eauto.
    - eapply set_num_ports_wf; eauto.
    - eapply insert_ports_wf; eauto.
    - unfold replace_op in E. destruct (contains h n); [|discriminate]. injection E as <-. destruct W. constructor; cbn; auto.
    - unfold write_meta in E. destruct (contains h n); [|discriminate]. injection E as <-. destruct W. constructor; cbn; auto.
  Qed.

  Lemma new_wf : forall r, wf (new_hugr (M := M) o_default r).
  Proof.
    intros r. constructor; cbn.
    - repeat constructor. intros [].
    - now left.
    - now left.
    - reflexivity.
    - intros n [<-|[]] X. congruence.
    - intros p c. split; [intros []|discriminate].
    - constructor.
    - auto.
    - intros n [<-|[]]. constructor.
    - intros l [].
  Qed.

  Lemma run_wf : forall acts (h h' : hugr), wf h -> legal_run o_default o_in o_out h acts ->
    run o_default o_in o_out h acts = Some h' -> wf h'.
  Proof.
    induction acts as [|a acts IH]; cbn [run legal_run]; intros h h' W L E; [now injection E as <-|].
    destruct L as [L1 L2]. destruct (step o_default o_in o_out h a) as [h1|] eqn:E1; [|discriminate].
    eapply IH; [|exact L2|exact E]. eapply step_wf; eauto.
  Qed.
End Graph.
