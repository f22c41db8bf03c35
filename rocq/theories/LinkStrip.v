(** Proofs about linking: removing what is not inserted, and moving the rest. *)
From Coq Require Import List Bool NArith Arith Lia Permutation.
From Verif Require Import GraphModel GraphSpec GraphProofs GraphRemove GraphProps GraphBfs InsertModel InsertSpec InsertProofs InsertTree InsertForest InsertProps
  LinkModel LinkSpec LinkSwap LinkCheck LinkProofs LinkMerge LinkInsert.
Import ListNotations.

Section Strip.
  Context {O M : Type}.
  Variable o_default : O.
  Notation hugr := (hugr O M).

  (** ** Removing nodes, leaving their children behind *)
  Record stripped (h0 : hugr) (R : list N) (h : hugr) : Prop := {
    sd_nodes : h_nodes h = filter (fun m => negb (memN m R)) (h_nodes h0);
    sd_ops : forall m, h_ops h m = if memN m R then o_default else h_ops h0 m;
    sd_meta : h_meta h = h_meta h0;
    sd_in : h_in h = h_in h0;
    sd_out : h_out h = h_out h0;
    sd_links : h_links h = filter (fun l => negb (memN (fst (fst l)) R || memN (fst (snd l)) R)) (h_links h0);
    sd_parent : forall m, h_parent h m = if memN m R then None else
                  match h_parent h0 m with Some p => if memN p R then None else Some p | None => None end;
    sd_kids : forall m, h_kids h m = if memN m R then [] else filter (fun c => negb (memN c R)) (h_kids h0 m);
    sd_root : h_root h = h_root h0;
    sd_entry : h_entry h = h_entry h0 }.

  Lemma filter_all : forall A (f : A -> bool) l, (forall x, In x l -> f x = true) -> filter f l = l.
  Proof.
    intros A f l E. rewrite (filter_in_ext _ f (fun _ => true)) by exact E. induction l as [|x l IH]; [reflexivity|]. cbn [filter].
    f_equal. apply IH. intros y I. apply E. now right.
  Qed.

  Lemma stripped_none : forall h : hugr, stripped h [] h.
  Proof.
    intros h. constructor; auto; cbn [memN existsb orb negb].
    - symmetry. now apply filter_all.
    - symmetry. now apply filter_all.
    - intros m. now destruct (h_parent h m).
    - intros m. symmetry. now apply filter_all.
  Qed.

  Lemma strip_step : forall (h0 h h' : hugr) R x, wf h0 -> stripped h0 R h -> ~ In x R -> remove_node o_default h x = Some h' -> stripped h0 (x :: R) h'.
  Proof.
    intros h0 h h' R x W C Nx. unfold remove_node. destruct (valid_non_entry h x); [|discriminate]. intros E. injection E as <-.
    apply memN_false in Nx.
    assert (Kx : h_kids (detach h x) x = h_kids h x).
    { unfold detach. rewrite (sd_parent _ _ _ C), Nx. destruct (h_parent h0 x) as [p|] eqn:Ep; [|reflexivity]. destruct (memN p R); [reflexivity|].
      cbn [set_tree h_kids]. apply upd_other. intros ->. apply (no_cycle h0 W p p Ep). constructor. }
    assert (Px : forall m, h_parent (detach h x) m = if N.eqb m x then None else h_parent h m).
    { intros m. rewrite detach_parent. reflexivity. }
    assert (Km : forall m, m <> x -> h_kids (detach h x) m = if memN m R then [] else filter (fun c => negb (memN c (x :: R))) (h_kids h0 m)).
    { intros m Ne. assert (F : memN m R = false -> ~ In x (h_kids h0 m) ->
          h_kids h m = if memN m R then [] else filter (fun c => negb (memN c (x :: R))) (h_kids h0 m)).
      { intros Em Nk. rewrite (sd_kids _ _ _ C), Em. apply filter_in_ext. intros c Ic. rewrite memN_cons.
        destruct (N.eqb_spec c x) as [->|_]; [contradiction|reflexivity]. }
      unfold detach. rewrite (sd_parent _ _ _ C), Nx. destruct (memN m R) eqn:Em.
      - assert (Z : h_kids h m = []) by (rewrite (sd_kids _ _ _ C), Em; reflexivity).
        destruct (h_parent h0 x) as [p|]; [|exact Z]. destruct (memN p R) eqn:Ep; [exact Z|]. cbn [set_tree h_kids]. unfold upd.
        destruct (N.eqb_spec m p) as [->|_]; [congruence|exact Z].
      - destruct (h_parent h0 x) as [p|] eqn:Ep.
        + destruct (memN p R) eqn:Mp.
          * apply F; [reflexivity|]. rewrite (wf_kids h0 W), Ep. intros X. injection X as ->. congruence.
          * cbn [set_tree h_kids]. unfold upd. destruct (N.eqb_spec m p) as [->|Np].
            -- rewrite (sd_kids _ _ _ C), Em. unfold delN. rewrite filter_filter. apply filter_ext. intros c. rewrite memN_cons, negb_orb. apply andb_comm.
            -- apply F; [reflexivity|]. rewrite (wf_kids h0 W), Ep. congruence.
        + apply F; [reflexivity|]. rewrite (wf_kids h0 W), Ep. discriminate. }
    destruct (detach_rest h x) as (R1 & R2 & R3 & R4 & R5 & R6 & R7 & R8).
    constructor; cbn [set_ops graph_remove tree_remove set_links set_nodes set_tree h_nodes h_ops h_meta h_in h_out h_links h_parent h_kids h_root h_entry].
    - rewrite R1, (sd_nodes _ _ _ C). unfold delN. rewrite filter_filter. apply filter_ext. intros m. rewrite memN_cons, negb_orb. apply andb_comm.
    - intros m. rewrite R2. unfold upd. rewrite memN_cons. destruct (N.eqb m x); [reflexivity|apply (sd_ops _ _ _ C)].
    - rewrite R3. apply (sd_meta _ _ _ C).
    - rewrite R4. apply (sd_in _ _ _ C).
    - rewrite R5. apply (sd_out _ _ _ C).
    - rewrite R6, (sd_links _ _ _ C), filter_filter. apply filter_ext. intros [[a i] [b j]]. unfold touches. cbn [fst snd].
      rewrite !memN_cons. destruct (memN a R), (memN b R), (N.eqb a x), (N.eqb b x); reflexivity.
    - intros m. rewrite Kx, Px, (sd_kids _ _ _ C), Nx, memN_cons. destruct (N.eqb_spec m x) as [->|Ne]; cbn [orb].
      + now destruct (memN x (filter _ _)).
      + rewrite (sd_parent _ _ _ C). destruct (memN m R) eqn:Em; [now destruct (memN m (filter _ _))|].
        destruct (h_parent h0 m) as [p|] eqn:Ep.
        * rewrite memN_cons. destruct (N.eqb_spec p x) as [->|Np]; cbn [orb].
          -- replace (memN m (filter _ _)) with true; [reflexivity|]. symmetry. apply memN_iff, filter_In. split; [now apply (wf_kids h0 W)|now rewrite Em].
          -- replace (memN m (filter _ _)) with false; [reflexivity|]. symmetry. apply memN_false. intros X. apply filter_In in X.
             destruct X as [X _]. apply (wf_kids h0 W) in X. congruence.
        * now destruct (memN m (filter _ _)).
    - intros m. unfold upd. rewrite memN_cons. destruct (N.eqb_spec m x) as [->|Ne]; [reflexivity|]. cbn [orb]. now apply Km.
    - rewrite R7. apply (sd_root _ _ _ C).
    - rewrite R8. apply (sd_entry _ _ _ C).
  Qed.


  Lemma filter_shorter : forall A (f : A -> bool) l, length (filter f l) <= length l.
  Proof. intros A f l. induction l as [|x l IH]; [constructor|]. cbn [filter]. destruct (f x); cbn [length]; lia. Qed.

  Lemma remove_kids_spec : forall o0 : hugr, wf o0 -> forall n, (forall c, In c (h_kids o0 n) -> c <> h_entry o0) ->
    forall fuel o R, stripped o0 R o -> ~ In n R -> length (h_kids o n) <= fuel ->
    exists o' R', remove_kids o_default fuel o n = Some o' /\ stripped o0 R' o' /\ forall x, In x R' <-> In x R \/ In x (h_kids o0 n).
  Proof.
    intros o0 W n NE. induction fuel as [|fuel IH]; intros o R S Nn Len.
    - destruct (h_kids o n) as [|c ks] eqn:Ek; [|cbn [length] in Len; lia]. cbn [remove_kids]. rewrite Ek. exists o, R. split; [reflexivity|]. split; [exact S|].
      intros x. split; [now left|]. intros [I|I]; [exact I|]. destruct (memN x R) eqn:Ex; [now apply memN_iff|]. exfalso.
      rewrite (sd_kids _ _ _ S), (proj2 (memN_false n R) Nn) in Ek. assert (J : In x (filter (fun c => negb (memN c R)) (h_kids o0 n))) by (apply filter_In; now rewrite Ex). rewrite Ek in J. destruct J.
    - cbn [remove_kids]. destruct (h_kids o n) as [|c ks] eqn:Ek.
      + exists o, R. split; [reflexivity|]. split; [exact S|].
        intros x. split; [now left|]. intros [I|I]; [exact I|]. destruct (memN x R) eqn:Ex; [now apply memN_iff|]. exfalso.
        rewrite (sd_kids _ _ _ S), (proj2 (memN_false n R) Nn) in Ek. assert (J : In x (filter (fun c => negb (memN c R)) (h_kids o0 n))) by (apply filter_In; now rewrite Ex). rewrite Ek in J. destruct J.
      + assert (F : filter (fun c => negb (memN c R)) (h_kids o0 n) = c :: ks) by (rewrite <- Ek, (sd_kids _ _ _ S), (proj2 (memN_false n R) Nn); reflexivity).
        assert (Ic : In c (filter (fun c => negb (memN c R)) (h_kids o0 n))) by (rewrite F; now left). apply filter_In in Ic. destruct Ic as [Ic Nc]. apply negb_true_iff in Nc.
        assert (Pc : h_parent o0 c = Some n) by now apply (wf_kids o0 W).
        destruct (proj2 (remove_node_iff o_default o c)) as (o1 & E1).
        { rewrite (sd_nodes _ _ _ S), (sd_entry _ _ _ S), filter_In, Nc. split; [split; [apply (wf_parent_live o0 W) in Pc; tauto|reflexivity]|now apply NE]. }
        rewrite E1. apply memN_false in Nc. pose proof (strip_step o0 o o1 R c W S Nc E1) as S1.
        destruct (IH o1 (c :: R) S1) as (o' & R' & E & S' & H).
        * intros [<-|I]; [|contradiction]. apply (no_cycle o0 W c c Pc). constructor.
        * rewrite (sd_kids _ _ _ S1), (proj2 (memN_false n (c :: R))).
          -- assert (X : filter (fun x => negb (memN x (c :: R))) (h_kids o0 n) = filter (fun x => negb (N.eqb x c)) (c :: ks)).
             { rewrite <- F, filter_filter. apply filter_ext. intros x. rewrite memN_cons, negb_orb. apply andb_comm. }
             rewrite X. cbn [filter]. rewrite N.eqb_refl. cbn [negb]. pose proof (filter_shorter N (fun x => negb (N.eqb x c)) ks). cbn [length] in Len. lia.
          -- intros [<-|I]; [|contradiction]. apply (no_cycle o0 W c c Pc). constructor.
        * exists o', R'. split; [exact E|]. split; [exact S'|]. intros x. rewrite H. cbn [In]. split; [intros [[<-|I]|I]; auto|]. tauto.
  Qed.

  Lemma strip_spec : forall o0 : hugr, wf o0 -> forall children,
    (forall c tn, In (c, UseExisting tn) children -> h_parent o0 c = Some (h_root o0) /\ h_parent o0 (h_entry o0) <> Some c) ->
    forall o R, stripped o0 R o -> (forall x, In x R -> h_parent o0 x <> Some (h_root o0)) ->
    exists o' R', strip o_default o children = Some o' /\ stripped o0 R' o' /\
      forall x, In x R' <-> In x R \/ exists c tn, In (c, UseExisting tn) children /\ h_parent o0 x = Some c.
  Proof.
    intros o0 W. induction children as [|[c [rs|tn]] children IH]; intros K o R S NR; cbn [strip is_add].
    - exists o, R. split; [reflexivity|]. split; [exact S|]. intros x. split; [now left|]. intros [I|(? & ? & [] & _)]. exact I.
    - destruct (IH (fun a b I => K a b (or_intror I)) o R S NR) as (o' & R' & E & S' & H). exists o', R'. split; [exact E|]. split; [exact S'|]. intros x. rewrite H.
      split; (intros [I|(a & b & I & P)]; [now left|right]); [exists a, b; split; [now right|exact P]|]. destruct I as [X|I]; [discriminate|]. now exists a, b.
    - destruct (K c tn (or_introl eq_refl)) as [Pc Ne].
      assert (Nc : ~ In c R) by (intros I; exact (NR c I Pc)).
      destruct (remove_kids_spec o0 W c) with (fuel := length (h_nodes o)) (o := o) (R := R) as (o1 & R1 & E1 & S1 & H1); auto.
      { intros x I ->. apply (wf_kids o0 W) in I. contradiction. }
      { apply NoDup_incl_length.
        - rewrite (sd_kids _ _ _ S). destruct (memN c R); [constructor|]. apply NoDup_filter, (wf_kids_once o0 W).
        - intros x. rewrite (sd_kids _ _ _ S), (sd_nodes _ _ _ S), (proj2 (memN_false c R) Nc), !filter_In. intros [I F]. split; [|exact F].
          apply (wf_kids o0 W), (wf_parent_live o0 W) in I. tauto. }
      rewrite E1.
      destruct (IH (fun a b I => K a b (or_intror I)) o1 R1 S1) as (o' & R' & E & S' & H).
      { intros x I. apply H1 in I. destruct I as [I|I]; [now apply NR|]. apply (wf_kids o0 W) in I. rewrite I. intros X. injection X as ->. rewrite (wf_top o0 W) in Pc. discriminate. }
      exists o', R'. split; [exact E|]. split; [exact S'|]. intros x. rewrite H, H1, (wf_kids o0 W). split.
      + intros [[I|I]|(a & b & I & P)]; [now left|right; exists c, tn; split; [now left|exact I]|]. right. exists a, b. split; [now right|exact P].
      + intros [I|(a & b & [X|I] & P)]; [now left; left| |]; [injection X as <- <-; left; now right|]. right. now exists a, b.
  Qed.
End Strip.

(** ** Only a part of the source matters *)
Section Ext.
  Context {O M : Type}.
  Variable o_default : O.
  Variable o_in o_out : O -> nat.
  Notation hugr := (hugr O M).

  Definition known (m : list (N * N)) (l : link) : bool :=
    match lookup m (fst (fst l)), lookup m (fst (snd l)) with Some _, Some _ => true | _, _ => false end.
  Lemma connect_known : forall m ls (h : hugr), connect_all m h ls = connect_all m h (filter (known m) ls).
  Proof.
    intros m. induction ls as [|[[s i] [t j]] ls IH]; intros h; [reflexivity|]. cbn [filter connect_all]. unfold known at 1. cbn [fst snd].
    destruct (lookup m s) as [s'|] eqn:Es; [|apply IH]. destruct (lookup m t) as [t'|] eqn:Et; [|apply IH]. cbn [connect_all]. rewrite Es, Et. destruct (connect h s' i t' j); [apply IH|reflexivity].
  Qed.
  Lemma filter_flat : forall A B (f : B -> bool) (g : A -> list B) l, filter f (flat_map g l) = flat_map (fun x => filter f (g x)) l.
  Proof. intros A B f g l. induction l as [|x l IH]; [reflexivity|]. cbn [flat_map]. now rewrite filter_app, IH. Qed.
  Lemma filter_swap : forall A (f g : A -> bool) l, filter f (filter g l) = filter g (filter f l).
  Proof. intros. rewrite !filter_filter. apply filter_ext. intros x. apply andb_comm. Qed.

  Variables o1 o2 : hugr.
  Variable nodes : list N.
  Hypothesis Hin : forall x, In x nodes -> h_in o1 x = h_in o2 x.
  Hypothesis Hout : forall x, In x nodes -> h_out o1 x = h_out o2 x.
  Hypothesis Hpar : forall x, In x nodes -> get_parent o1 x = get_parent o2 x.
  Hypothesis Hlinks : filter (inside nodes) (h_links o1) = filter (inside nodes) (h_links o2).

  Lemma known_links : forall m, incl (map fst m) nodes -> filter (known m) (h_links o1) = filter (known m) (h_links o2).
  Proof.
    intros m I. assert (X : forall ls, filter (known m) ls = filter (known m) (filter (inside nodes) ls)).
    { intros ls. rewrite filter_filter. apply filter_ext. intros l. destruct (known m l) eqn:E; [|now rewrite andb_false_r]. rewrite andb_true_r. symmetry.
      unfold known in E. unfold inside. destruct (lookup m (fst (fst l))) as [a|] eqn:E1; [|discriminate]. destruct (lookup m (fst (snd l))) as [b|] eqn:E2; [|discriminate].
      apply andb_true_iff. rewrite !memN_iff. split; apply I; apply lookup_In, (in_map fst) in E1; apply lookup_In, (in_map fst) in E2; assumption. }
    rewrite (X (h_links o1)), (X (h_links o2)). now rewrite Hlinks.
  Qed.

  Lemma insert_nodes_ext : forall pairs (h : hugr) m, incl (map fst pairs) nodes -> incl (map fst m) nodes ->
    insert_nodes o_default o_in o_out o1 h m pairs = insert_nodes o_default o_in o_out o2 h m pairs.
  Proof.
    induction pairs as [|[old new] pairs IH]; intros h m Ip Im; [reflexivity|]. cbn [insert_nodes].
    assert (Io : In old nodes) by (apply Ip; now left). assert (Ip' : incl (map fst pairs) nodes) by (intros x X; apply Ip; now right).
    assert (Im' : incl (map fst ((old, new) :: m)) nodes) by (intros x [<-|X]; [exact Io|now apply Im]).
    destruct (add_node o_in o_out h new o_default) as [h1|]; [|reflexivity]. destruct (lookup m old); [reflexivity|]. rewrite (Hin old Io), (Hout old Io).
    destruct (set_num_ports h1 new (h_in o2 old) (h_out o2 old)) as [h2|]; [|reflexivity].
    assert (L1 : forall h : hugr, connect_all ((old, new) :: m) h (links_in o1 old) = connect_all ((old, new) :: m) h (links_in o2 old)).
    { intros h0. rewrite connect_known, (connect_known _ (links_in o2 old)). f_equal. unfold links_in. rewrite !filter_flat, (Hin old Io). apply flat_map_ext. intros t.
      rewrite !(filter_swap _ (known _)). now rewrite (known_links _ Im'). }
    assert (L2 : forall h : hugr, connect_all ((old, new) :: m) h (filter (fun l => negb (N.eqb (fst (snd l)) old)) (links_out o1 old)) =
                           connect_all ((old, new) :: m) h (filter (fun l => negb (N.eqb (fst (snd l)) old)) (links_out o2 old))).
    { intros h0. rewrite connect_known, (connect_known _ (filter _ (links_out o2 old))). f_equal. rewrite !(filter_swap _ (known _)). f_equal.
      unfold links_out. rewrite !filter_flat, (Hout old Io). apply flat_map_ext. intros t. rewrite !(filter_swap _ (known _)). now rewrite (known_links _ Im'). }
    rewrite L1. destruct (connect_all ((old, new) :: m) h2 (links_in o2 old)) as [h3|]; [|reflexivity]. rewrite L2.
    destruct (connect_all ((old, new) :: m) h3 _) as [h4|]; [|reflexivity]. now apply IH.
  Qed.

  Lemma place_rest_ext : forall m ns (h : hugr), incl ns nodes -> place_rest o1 m h ns = place_rest o2 m h ns.
  Proof.
    intros m. induction ns as [|old ns IH]; intros h I; [reflexivity|]. cbn [place_rest]. assert (I' : incl ns nodes) by (intros x X; apply I; now right).
    destruct (lookup m old) as [new|]; [|reflexivity]. destruct (get_parent h new); [now apply IH|]. rewrite (Hpar old) by (apply I; now left).
    destruct (get_parent o2 old) as [p|]; [|reflexivity]. destruct (lookup m p) as [p'|]; [|reflexivity]. destruct (set_parent h new p'); [now apply IH|reflexivity].
  Qed.

  Lemma combine_keys : forall (a b : list N), incl (map fst (combine a b)) a.
  Proof. induction a as [|x a IH]; intros [|y b] z; cbn; try tauto. intros [<-|I]; [now left|right]. now apply (IH b). Qed.

  Lemma internal_ext : forall (h : hugr) fresh roots,
    insert_forest_internal o_default o_in o_out h o1 nodes fresh roots = insert_forest_internal o_default o_in o_out h o2 nodes fresh roots.
  Proof.
    intros h fresh roots. unfold insert_forest_internal. rewrite insert_nodes_ext; [|apply combine_keys|intros x []].
    destruct (insert_nodes o_default o_in o_out o2 h [] (combine nodes fresh)) as [[h1 m]|n|a b|]; try reflexivity.
    destruct (place_roots m h1 roots) as [h2|]; [|reflexivity]. now rewrite (place_rest_ext m nodes h2 (incl_refl _)).
  Qed.
End Ext.

Lemma Bfs_ext : forall k k' q out, Bfs k q out -> (forall x, In x out -> k x = k' x) -> Bfs k' q out.
Proof.
  intros k k' q out B. induction B as [|n q out B IH]; intros E; [constructor|]. constructor. rewrite <- (E n (or_introl eq_refl)). apply IH. intros x I. apply E. now right.
Qed.
Lemma Bfs_bfs : forall k q out, Bfs k q out -> forall fuel, length out <= fuel -> bfs k fuel q = out.
Proof.
  intros k q out B. induction B as [|n q out B IH]; intros fuel L; [now destruct fuel|]. cbn [length] in L. destruct fuel as [|fuel]; [lia|]. cbn [bfs]. f_equal. apply IH. lia.
Qed.

(** ** Moving *)
Section Move.
  Context {O M : Type}.
  Variable o_default : O.
  Variable o_in o_out : O -> nat.
  Notation hugr := (hugr O M).

  (** The other HUGR once its entrypoint is below the root. *)
  Record lifted (other o1 : hugr) (parent : option N) : Prop := {
    li_wf : wf o1;
    li_nodes : h_nodes o1 = h_nodes other;
    li_ops : h_ops o1 = h_ops other;
    li_meta : h_meta o1 = h_meta other;
    li_links : h_links o1 = h_links other;
    li_in : h_in o1 = h_in other;
    li_out : h_out o1 = h_out other;
    li_root : h_root o1 = h_root other;
    li_entry : h_entry o1 = h_entry other;
    li_top : parent <> None -> h_parent o1 (h_entry other) = Some (h_root other);
    li_parent : forall x, (parent <> None -> x <> h_entry other) -> h_parent o1 x = h_parent other x;
    li_kids : forall x, x <> h_root other -> h_parent other (h_entry other) <> Some x -> h_kids o1 x = h_kids other x }.

  Lemma lift_spec : forall (other : hugr) parent, wf other -> (parent <> None -> h_entry other <> h_root other) ->
    exists o1, match parent with Some _ => set_parent other (h_entry other) (h_root other) | None => Some other end = Some o1 /\ lifted other o1 parent.
  Proof.
    intros other parent Wo NE. destruct parent as [p|].
    - destruct (proj2 (set_parent_iff other (h_entry other) (h_root other) Wo)) as (o1 & E).
      { split; [apply (wf_entry other Wo)|]. split; [apply (wf_root other Wo)|]. intros U. apply (up_root other Wo) in U. apply NE; [discriminate|congruence]. }
      exists o1. split; [exact E|]. destruct (set_parent_effect O M other o1 _ _ Wo E) as (P1 & P2 & _ & K & A1 & A2 & A3 & A4 & A5 & A6 & A7 & A8).
      constructor; auto.
      + exact (set_parent_wf o_default o_in o_out other o1 _ _ Wo E).
      + intros x Nx. apply P2. apply Nx. discriminate.
      + intros x Nr Np. rewrite (K x Nr). unfold delN. assert (X : ~ In (h_entry other) (h_kids other x)) by now rewrite (wf_kids other Wo).
        clear -X. revert X. generalize (h_kids other x) as l. induction l as [|y l IH]; intros X; [reflexivity|]. cbn [filter].
        destruct (N.eqb_spec y (h_entry other)) as [->|]; [exfalso; apply X; now left|]. cbn [negb]. f_equal. apply IH. intros I. apply X. now right.
    - exists other. split; [reflexivity|]. constructor; auto; congruence.
  Qed.

  Lemma hugr_linked : forall su sr so (h other : hugr) fresh parent children,
    (forall l, Permutation (su l) l) -> (forall l, Permutation (sr l) l) -> (forall l, Permutation (so l) l) ->
    wf h -> wf other -> NoDup (map fst children) -> acceptable other parent children -> linkable h other parent children ->
    (parent <> None -> h_entry other <> h_root other) ->
    (parent = None -> forall sn tn, In (sn, UseExisting tn) children -> h_parent other (h_entry other) <> Some sn) ->
    NoDup fresh -> (forall y, In y fresh -> ~ In y (h_nodes h)) -> length (h_nodes other) <= length fresh ->
    exists h' m f, insert_link_hugr o_default o_in o_out su sr so h other fresh parent children = Linked (h', m) /\
      merged h other parent children f m h' /\
      (forall x, inserted other parent children x -> h_meta h' (f x) = h_meta other x).
  Proof.
    intros su sr so h other fresh parent children Su Sr So W Wo ND A K NE NS Df Fr Len.
    assert (Hr : Permutation (so (link_roots h other parent children)) (link_roots h other parent children)) by apply So.
    set (roots := so (link_roots h other parent children)) in *.
    set (whole := fun x => match lookup children x with Some d => is_add d | None => true end).
    set (ps := map (fun r : N * N => (fst r, whole (fst r))) roots).
    assert (Pp : Permutation ps (pieces other parent children)).
    { unfold ps. eapply Permutation_trans; [apply (Permutation_map _ Hr)|]. unfold link_roots, pieces. rewrite map_app, map_map. cbn [fst].
      assert (Y : forall l, incl l children -> map (fun c : N * directive => (fst c, whole (fst c))) l = map (fun c => (fst c, is_add (snd c))) l).
      { intros l I. apply map_ext_in. intros [c d] Ic. cbn [fst snd]. unfold whole. now rewrite (lookup_nodup _ children c d ND (I _ Ic)). }
      rewrite (Y children (incl_refl _)). apply Permutation_app_tail.
      assert (Z : parent <> None -> whole (h_entry other) = true).
      { intros P. unfold whole. rewrite (proj2 (lookup_None _ children (h_entry other))); [reflexivity|]. apply (ac_entry _ _ _ A P). now apply NE. }
      destruct parent as [p|]; [|constructor]. cbn [map fst]. rewrite Z by discriminate. reflexivity. }
    set (nodes := nodes_of other ps).
    pose proof (ps_D1 other parent children Wo ND A ps Pp) as D1. pose proof (ps_L other parent children Wo A ps Pp) as L.
    pose proof (pieces_nodup other Wo ps D1 L (ps_D2 other parent children Wo A ps Pp)) as Dn. fold nodes in Dn.
    pose proof (pieces_live other Wo ps L) as Ln. fold nodes in Ln.
    pose proof (ps_in other parent children Wo A ps Pp) as Hn. fold nodes in Hn.
    pose proof (is_root_iff h other parent children A ps Pp roots Hr) as Rk.
    assert (Kp : forall r, In r (map fst ps) <-> (parent <> None /\ r = h_entry other) \/ In r (map fst children)).
    { intros r. rewrite (perm_key other parent children ps Pp). apply key_pieces; exact A. }
    (* nodes that are not roots *)
    assert (Up : forall x, In x nodes -> is_root roots x = false -> exists p, h_parent other x = Some p /\ inserted other parent children p).
    { intros x I R. assert (Nx : ~ In x (map fst ps)) by (rewrite <- Rk; congruence). apply (pieces_in other Wo ps L) in I.
      destruct I as [(r & I & U)|I]; [|exfalso; apply Nx; apply (in_map fst) in I; exact I].
      inversion U as [|? p ? E U']; subst; [exfalso; apply Nx; apply (in_map fst) in I; exact I|]. exists p. split; [exact E|].
      apply (whole_iff other parent children A ps Pp). now exists r. }
    (* the parent of the entrypoint is not inserted, neither is the root *)
    assert (Ne : parent <> None -> forall x, inserted other parent children x -> h_parent other (h_entry other) <> Some x).
    { intros P x [[_ U]|(sn & Ad & U)] E.
      - exact (no_cycle other Wo _ _ E U).
      - apply (ac_above _ _ _ A P (NE P) sn Ad). now apply up_next with x. }
    assert (Nr : ~ inserted other parent children (h_root other)).
    { intros [[P U]|(sn & Ad & U)]; apply (up_root other Wo) in U; [now apply (NE P)|]. subst sn. pose proof (ac_root _ _ _ A _ (added_child children _ Ad)) as X. rewrite (wf_top other Wo) in X. discriminate. }
    assert (Sub : forall c tn, In (c, UseExisting tn) children -> h_parent other c = Some (h_root other)).
    { intros c tn I. apply (ac_root _ _ _ A). apply (in_map fst) in I. exact I. }
    assert (NiS : forall x c tn, inserted other parent children x -> In (c, UseExisting tn) children -> x <> c).
    { intros x c tn I Ic ->. apply (ins_not_sub other parent children Wo ND A c I). apply in_map_iff. exists (c, tn). split; [reflexivity|]. now apply substitutes_iff. }
    destruct (lift_spec other parent Wo NE) as (o1 & E1 & Li).
    (* parents of roots after lifting *)
    assert (Rp : forall x, In x (map fst ps) -> h_parent o1 x = Some (h_root other)).
    { intros x I. apply Kp in I. destruct I as [[P ->]|I]; [now apply (li_top _ _ _ Li)|].
      rewrite (li_parent _ _ _ Li); [now apply (ac_root _ _ _ A)|]. intros P ->. exact (ac_entry _ _ _ A P (NE P) I). }
    assert (Np : forall x, In x nodes -> is_root roots x = false -> h_parent o1 x = h_parent other x).
    { intros x I R. apply (li_parent _ _ _ Li). intros P ->. assert (is_root roots (h_entry other) = true) by (apply Rk, Kp; now left). congruence. }
    assert (Kd : forall x, inserted other parent children x -> h_kids o1 x = h_kids other x).
    { intros x I. assert (Dp : parent = None \/ parent <> None) by (destruct parent; [right; discriminate|now left]). destruct Dp as [P|P].
      - rewrite P in E1. injection E1 as <-. reflexivity.
      - apply (li_kids _ _ _ Li); [intros ->; exact (Nr I)|]. exact (Ne P x I). }
    destruct (strip_spec o_default o1 (li_wf _ _ _ Li) children) with (o := o1) (R := @nil N) as (o2 & R & E2 & S & HR).
    { intros c tn I. assert (Ic : In c (map fst children)) by (apply (in_map fst) in I; exact I).
      split; [rewrite (li_root _ _ _ Li); apply Rp, Kp; now right|]. rewrite (li_entry _ _ _ Li).
      assert (Dp : parent = None \/ parent <> None) by (destruct parent; [right; discriminate|now left]). destruct Dp as [P|P].
      - rewrite P in E1. injection E1 as <-. exact (NS P c tn I).
      - rewrite (li_top _ _ _ Li P). intros X. injection X as <-. specialize (Sub _ _ I). rewrite (wf_top other Wo) in Sub. discriminate. }
    { apply stripped_none. }
    { intros x []. }
    (* the nodes are untouched *)
    assert (NR : forall x, In x nodes -> ~ In x R).
    { intros x I J. apply HR in J. destruct J as [[]|(c & tn & Ic & P)]. destruct (is_root roots x) eqn:Rx.
      - apply Rk in Rx. rewrite (Rp x Rx) in P. injection P as <-. specialize (Sub _ _ Ic). rewrite (wf_top other Wo) in Sub. discriminate.
      - rewrite (Np x I Rx) in P. destruct (Up x I Rx) as (p & Ep & Ip). rewrite Ep in P. injection P as ->. exact (NiS c c tn Ip Ic eq_refl). }
    assert (In_ : forall x, inserted other parent children x -> In x nodes) by (intros x I; apply Hn; now left).
    assert (Kids2 : forall x, inserted other parent children x -> h_kids o2 x = h_kids other x).
    { intros x I. rewrite (sd_kids _ _ _ _ S), (proj2 (memN_false x R) (NR x (In_ x I))), (Kd x I). apply filter_all. intros c Ic. apply negb_true_iff, memN_false, NR, In_.
      apply (wf_kids other Wo) in Ic. destruct I as [[P U]|(sn & Ad & U)]; [left; split; [exact P|now apply up_next with x]|right; exists sn; split; [exact Ad|now apply up_next with x]]. }
    assert (In2 : forall x, In x nodes -> In x (h_nodes o2)).
    { intros x I. rewrite (sd_nodes _ _ _ _ S), (li_nodes _ _ _ Li). apply filter_In. split; [now apply Ln|]. now apply negb_true_iff, memN_false, NR. }
    assert (Root2 : h_root o2 = h_root other) by (rewrite (sd_root _ _ _ _ S); apply (li_root _ _ _ Li)).
    assert (Rnodes : incl (map fst roots) nodes) by exact (ps_roots h other parent children Wo A ps Pp roots Hr).
    assert (NrR : ~ In (h_root other) R).
    { intros J. apply HR in J. destruct J as [[]|(c & tn & Ic & P)]. rewrite <- (li_root _ _ _ Li), (wf_top o1 (li_wf _ _ _ Li)) in P. discriminate. }
    assert (Gp : forall x, In x nodes -> get_parent o2 x = get_parent o1 x).
    { intros x I. rewrite (get_parent_wf o1 x (li_wf _ _ _ Li)). unfold get_parent, contains. rewrite (proj2 (memN_iff x (h_nodes o2)) (In2 x I)). cbn [andb]. rewrite Root2.
      assert (X : x <> h_root other).
      { intros ->. apply Hn in I. destruct I as [I|I]; [exact (Nr I)|]. apply in_map_iff in I. destruct I as ([c tn] & E & I). cbn [fst] in E. subst c. apply substitutes_iff in I. specialize (Sub _ _ I). rewrite (wf_top other Wo) in Sub. discriminate. }
      rewrite (proj2 (N.eqb_neq _ _) X). cbn [negb]. rewrite (sd_parent _ _ _ _ S), (proj2 (memN_false x R) (NR x I)).
      destruct (is_root roots x) eqn:Rx.
      - apply Rk in Rx. rewrite (Rp x Rx). now rewrite (proj2 (memN_false _ R) NrR).
      - rewrite (Np x I Rx). destruct (Up x I Rx) as (p & Ep & Ip). rewrite Ep. now rewrite (proj2 (memN_false p R) (NR p (In_ p Ip))). }
    (* what is traversed *)
    assert (Ds : flat_map (fun r => descendants o2 (fst r)) roots = nodes).
    { unfold nodes, nodes_of, ps. assert (G : forall l, incl l roots -> flat_map (fun r => descendants o2 (fst r)) l =
        flat_map (fun r : N * bool => if snd r then descendants other (fst r) else [fst r]) (map (fun r => (fst r, whole (fst r))) l)); [|apply G, incl_refl].
      induction l as [|[r p] l IH]; intros I; [reflexivity|]. cbn [map flat_map fst snd]. rewrite IH by (intros z Z; apply I; now right). f_equal.
      assert (Ir : In (r, whole r) ps) by (unfold ps; apply in_map_iff; exists (r, p); split; [reflexivity|apply I; now left]).
      assert (Irn : In r nodes) by (apply Rnodes; apply in_map_iff; exists (r, p); split; [reflexivity|apply I; now left]).
      destruct (whole r) eqn:Wr.
      - destruct (descendants_spec other Wo r (Ln r Irn)) as (B & D & U). unfold descendants at 1.
        assert (Ins : forall x, In x (descendants other r) -> inserted other parent children x).
        { intros x X. apply (whole_iff other parent children A ps Pp). exists r. split; [exact Ir|now apply U]. }
        apply (Bfs_bfs _ _ _ (Bfs_ext _ (h_kids o2) _ _ B (fun x X => eq_sym (Kids2 x (Ins x X))))).
        apply NoDup_incl_length; [exact D|]. intros x X. now apply In2, In_, Ins.
      - assert (Kr : h_kids o2 r = []).
        { rewrite (sd_kids _ _ _ _ S), (proj2 (memN_false r R) (NR r Irn)). unfold whole in Wr. destruct (lookup children r) as [[rs|tn]|] eqn:El; try discriminate. apply lookup_In in El.
          destruct (filter (fun c => negb (memN c R)) (h_kids o1 r)) as [|c cs] eqn:F; [reflexivity|]. exfalso. assert (Ic : In c (c :: cs)) by now left. rewrite <- F in Ic.
          apply filter_In in Ic. destruct Ic as [Ic Nc]. apply negb_true_iff, memN_false in Nc. apply Nc, HR. right. exists r, tn. split; [exact El|]. now apply (wf_kids o1 (li_wf _ _ _ Li)). }
        unfold descendants. pose proof (In2 r Irn) as X. destruct (h_nodes o2) as [|z zs]; [destruct X|]. cbn [length bfs app]. rewrite Kr. now destruct (length zs). }
    (* no overlap *)
    assert (Ov : overlap o2 roots roots = None).
    { assert (Nroot : lookup roots (h_root other) = None).
      { apply lookup_None. intros I. assert (X : is_root roots (h_root other) = true) by now apply memN_iff. apply Rk in X. apply Rp in X. rewrite <- (li_root _ _ _ Li), (wf_top o1 (li_wf _ _ _ Li)) in X. discriminate. }
      assert (G : forall l, incl l roots -> overlap o2 l roots = None); [|apply G, incl_refl].
      induction l as [|[r p] l IH]; intros I; [reflexivity|]. cbn [overlap].
      assert (Ir : In r (map fst roots)) by (apply in_map_iff; exists (r, p); split; [reflexivity|apply I; now left]).
      replace (root_above o2 roots (length (h_nodes o2)) r) with (@None N); [apply IH; intros z Z; apply I; now right|]. symmetry.
      destruct (length (h_nodes o2)) as [|k]; [reflexivity|]. cbn [root_above]. rewrite (Gp r (Rnodes r Ir)), (get_parent_wf o1 r (li_wf _ _ _ Li)).
      rewrite (Rp r) by (apply Rk; now apply memN_iff). rewrite Nroot. destruct k as [|k]; [reflexivity|]. cbn [root_above].
      unfold get_parent. rewrite Root2, N.eqb_refl. cbn [negb]. now rewrite andb_false_r. }
    (* the insertion *)
    assert (Lk : filter (inside nodes) (h_links o2) = filter (inside nodes) (h_links o1)).
    { rewrite (sd_links _ _ _ _ S), filter_filter. apply filter_ext. intros [[a i] [b j]]. destruct (inside nodes ((a, i, (b, j)) : link)) eqn:E; unfold link, endpoint in *; rewrite E; [|now rewrite andb_false_r]. rewrite andb_true_r.
      unfold inside in E. cbn [fst snd] in *. apply andb_true_iff in E. rewrite !memN_iff in E. destruct E as [Ea Eb].
      rewrite (proj2 (memN_false a R) (NR a Ea)), (proj2 (memN_false b R) (NR b Eb)). reflexivity. }
    destruct (internal_spec o_default o_in o_out h o1 nodes fresh roots W (li_wf _ _ _ Li) Dn) as (h1 & m & E & Em & Dk & Dv & Km & G & W1 & Mt); auto.
    { rewrite (li_nodes _ _ _ Li). exact Ln. }
    { pose proof (NoDup_incl_length Dn Ln). lia. }
    { exact (roots_nodup h other parent children Wo ND A roots Hr). }
    { intros r p I. apply (root_iff h other parent children A roots Hr) in I. destruct I as [[Ep _]|[-> _]]; [now apply (lk_parent _ _ _ _ K)|apply (wf_root h W)]. }
    { intros x I Rx. rewrite (Np x I Rx). destruct (Up x I Rx) as (p & Ep & Ip). exists p. split; [exact Ep|now apply In_]. }
    rewrite <- (internal_ext o_default o_in o_out o2 o1 nodes) in E; [|intros; now rewrite (sd_in _ _ _ _ S)|intros; now rewrite (sd_out _ _ _ _ S)|exact Gp|exact Lk].
    assert (G' : grafted h other nodes roots (image_of m) h1).
    { constructor; try exact (gr_root _ _ _ _ _ _ G); try exact (gr_entry _ _ _ _ _ _ G); try apply G.
      - intros x I. rewrite <- (li_in _ _ _ Li), <- (li_out _ _ _ Li). now apply (gr_ports _ _ _ _ _ _ G).
      - intros x I Rx. rewrite <- (Np x I Rx). now apply (gr_parent _ _ _ _ _ _ G).
      - intros x I. rewrite (gr_kids _ _ _ _ _ _ G x I). f_equal. apply filter_in_ext. intros c Ic. destruct (is_root roots c) eqn:Rc; [reflexivity|]. cbn [negb andb].
        unfold has_parent. now rewrite (Np c Ic Rc).
      - rewrite <- (li_links _ _ _ Li). apply (gr_links _ _ _ _ _ _ G). }
    destruct (move_spec o_default o_in o_out o2 m h1 Dv) as (Sh & Mv & Nn).
    assert (Fresh : forall y, In y (h_nodes h) -> ~ In y (map snd m)).
    { intros y Iy J. apply in_map_iff in J. destruct J as ([x v] & Ev & J). cbn [snd] in Ev. subst v.
      apply (gr_fresh _ _ _ _ _ _ G x); [apply Km; apply in_map_iff; exists (x, y); auto|]. now rewrite (image_nodup m x y Dk J). }
    pose proof (check_spec other Wo parent children ND) as C.
    destruct (check_directives other parent children) as [tr|e] eqn:Ec; [|exfalso; exact (justified_wrong other parent children e C A)].
    destruct C as (_ & Eu & Er).
    destruct (merge_done o_default h other parent children W Wo ND A K nodes roots (image_of m) (move_contents o2 h1 m) m) with (use := su (t_use tr)) (rep := sr (t_rep tr)) as (h' & m' & E' & Mg & Mt'); auto.
    - intros x y. rewrite Km. split.
      + intros X. split; [|symmetry; now apply image_nodup, lookup_In]. apply lookup_In in X. apply in_map_iff. exists (x, y). auto.
      + intros [X ->]. apply lookup_nodup; [exact Dk|]. now apply image_in.
    - apply (shape_grafted h other h1); auto.
    - now apply (shape_wf h1).
    - intros x I. pose proof I as J. apply Km in J. apply image_in in J. rewrite (proj1 (Mv _ _ J)), (sd_ops _ _ _ _ S), (proj2 (memN_false x R) (NR x I)). now rewrite (li_ops _ _ _ Li).
    - intros x I. assert (X : h_kids (move_contents o2 h1 m) = h_kids h1) by apply Sh. rewrite X. rewrite (gr_kids _ _ _ _ _ _ G' x (In_ x I)). f_equal.
      exact (ps_kids h other parent children Wo ND A ps Pp roots Hr x I).
    - rewrite Eu. apply Su.
    - rewrite Er. apply Sr.
    - exists h', m', (image_of m). split; [|split; [exact Mg|]].
      + unfold insert_link_hugr. rewrite Ec, E1, E2. fold roots. unfold insert_forest. rewrite Ov, Ds, E. unfold shuffled. now rewrite E'.
      + intros x I. rewrite (Mt' x I). pose proof (In_ x I) as J. apply Km in J. apply image_in in J. rewrite (proj2 (Mv _ _ J)), (sd_meta _ _ _ _ S). now rewrite (li_meta _ _ _ Li).
  Qed.
End Move.
