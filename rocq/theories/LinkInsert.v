(** Proofs about linking: the two ways of inserting. *)
From Coq Require Import List Bool NArith Arith Lia Permutation.
From Verif Require Import GraphModel GraphSpec GraphProofs GraphRemove GraphProps GraphBfs InsertModel InsertSpec InsertProofs InsertTree InsertForest InsertProps
  LinkModel LinkSpec LinkSwap LinkCheck LinkProofs LinkMerge.
Import ListNotations.

Section Pieces.
  Context {O M : Type}.
  Notation hugr := (hugr O M).
  Variable other : hugr.
  Hypothesis W : wf other.

  (** Regions, whole or reduced to their root. *)
  Definition nodes_of (ps : list (N * bool)) : list N := flat_map (fun r : N * bool => if snd r then descendants other (fst r) else [fst r]) ps.
  Variable ps : list (N * bool).
  Hypothesis D1 : NoDup (map fst ps).
  Hypothesis L : incl (map fst ps) (h_nodes other).
  Hypothesis D2 : forall r s, In r (map fst ps) -> In (s, true) ps -> up (h_parent other) r s -> r = s.

  Lemma piece_key : forall r b, In (r, b) ps -> In r (map fst ps).
  Proof. intros r b I. apply (in_map fst) in I. exact I. Qed.
  Lemma piece_desc : forall r b, In (r, b) ps -> NoDup (descendants other r) /\ forall x, In x (descendants other r) <-> up (h_parent other) x r.
  Proof. intros r b I. destruct (descendants_spec other W r (L r (piece_key r b I))) as (_ & B & C). auto. Qed.

  Lemma pieces_in : forall x, In x (nodes_of ps) <-> (exists r, In (r, true) ps /\ up (h_parent other) x r) \/ In (x, false) ps.
  Proof.
    intros x. unfold nodes_of. rewrite in_flat_map. split.
    - intros ([r [|]] & I & X); cbn [fst snd] in X.
      + left. exists r. split; [exact I|]. now apply (piece_desc r true I).
      + destruct X as [<-|[]]. now right.
    - intros [(r & I & U)|I]; [exists (r, true)|exists (x, false)]; (split; [exact I|]); cbn [fst snd]; [now apply (piece_desc r true I)|now left].
  Qed.

  Lemma pieces_apart : forall r b s c x, In (r, b) ps -> In (s, c) ps -> In x (if b then descendants other r else [r]) ->
    In x (if c then descendants other s else [s]) -> r = s.
  Proof.
    intros r b s c x Ir Is X Y. destruct b, c.
    - apply (piece_desc r true Ir) in X. apply (piece_desc s true Is) in Y. destruct (up_linear _ _ _ _ X Y) as [U|U].
      + apply D2; [now apply piece_key in Ir|exact Is|exact U].
      + symmetry. apply D2; [now apply piece_key in Is|exact Ir|exact U].
    - apply (piece_desc r true Ir) in X. destruct Y as [<-|[]]. symmetry. apply D2; [now apply piece_key in Is|exact Ir|exact X].
    - apply (piece_desc s true Is) in Y. destruct X as [<-|[]]. apply D2; [now apply piece_key in Ir|exact Is|exact Y].
    - destruct X as [<-|[]]. now destruct Y as [<-|[]].
  Qed.

  Lemma app_nodup : forall a b : list N, NoDup a -> NoDup b -> (forall x, In x a -> ~ In x b) -> NoDup (a ++ b).
  Proof.
    induction a as [|x a IHa]; intros b Da Db X; [exact Db|]. inversion Da; subst. cbn [app]. constructor.
    - rewrite in_app_iff. intros [J|J]; [contradiction|]. apply (X x (or_introl eq_refl) J).
    - apply IHa; auto. intros y Y. apply X. now right.
  Qed.

  Lemma pieces_nodup : NoDup (nodes_of ps).
  Proof.
    assert (G : forall l, incl l ps -> NoDup (map fst l) -> NoDup (nodes_of l)); [|apply G; [apply incl_refl|exact D1]].
    induction l as [|[r b] l IH]; intros I D; [constructor|]. cbn [map fst] in D. inversion D as [|? ? Nr D']; subst. cbn [nodes_of flat_map fst snd].
    assert (Ir : In (r, b) ps) by (apply I; now left). apply app_nodup.
    - destruct b; [apply (piece_desc r true Ir)|]. constructor; [intros []|constructor].
    - apply IH; [|exact D']. intros z Z. apply I. now right.
    - intros x X Y. apply in_flat_map in Y. destruct Y as ([s c] & Is & Y). cbn [fst snd] in Y.
      assert (r = s) by (apply (pieces_apart r b s c x Ir); auto; apply I; now right). subst s. apply Nr. apply (in_map fst) in Is. exact Is.
  Qed.

  Lemma pieces_live : incl (nodes_of ps) (h_nodes other).
  Proof.
    intros x I. apply pieces_in in I. destruct I as [(r & I & U)|I]; [|exact (L x (piece_key x false I))].
    inversion U as [|? p ? E U']; subst; [exact (L r (piece_key r true I))|]. apply (wf_parent_live other W) in E. tauto.
  Qed.

  Lemma pieces_kids : forall (roots : list (N * N)) x s, (forall c, is_root roots c = true <-> In c (map fst ps)) -> In (s, true) ps -> up (h_parent other) x s ->
    filter (fun c => negb (is_root roots c) && has_parent other x c) (nodes_of ps) = h_kids other x.
  Proof.
    intros roots x s R Is U.
    assert (E : filter (fun c => negb (is_root roots c) && has_parent other x c) (nodes_of ps) = filter (fun c => opt_is (h_parent other c) x) (nodes_of ps)).
    { apply filter_ext. intros c. unfold has_parent, opt_is. destruct (h_parent other c) as [q|] eqn:Q; [|now rewrite andb_false_r].
      destruct (N.eqb_spec q x) as [->|]; [|now rewrite andb_false_r]. rewrite andb_true_r. destruct (is_root roots c) eqn:Rc; [|reflexivity].
      exfalso. apply R in Rc. assert (c = s) by (apply D2; auto; now apply up_next with x). subst c. exact (no_cycle other W s x Q U). }
    rewrite E. clear E.
    assert (G : forall l, incl l ps -> NoDup (map fst l) -> filter (fun c => opt_is (h_parent other c) x) (nodes_of l) = if memN s (map fst l) then h_kids other x else []).
    { induction l as [|[r b] l IH]; intros I D; [reflexivity|]. cbn [map fst] in D. inversion D as [|? ? Nr D']; subst. cbn [nodes_of flat_map fst snd map].
      assert (Ir : In (r, b) ps) by (apply I; now left). assert (I' : incl l ps) by (intros z Z; apply I; now right).
      change (flat_map (fun r0 : N * bool => if snd r0 then descendants other (fst r0) else [fst r0]) l) with (nodes_of l).
      rewrite filter_app, (IH I' D'), memN_cons. destruct (N.eqb_spec s r) as [->|Ne]; cbn [orb].
      - rewrite (proj2 (memN_false r (map fst l)) Nr), app_nil_r. assert (b = true) by exact (keys_unique _ ps r b true D1 Ir Is). subst b.
        apply (descendants_kids other W); auto. apply L. exact (piece_key r true Is).
      - assert (Z : filter (fun c => opt_is (h_parent other c) x) (if b then descendants other r else [r]) = []); [|now rewrite Z].
        destruct (filter (fun c => opt_is (h_parent other c) x) (if b then descendants other r else [r])) as [|c cs] eqn:F; [reflexivity|]. exfalso.
        assert (Ic : In c (c :: cs)) by now left. rewrite <- F in Ic. apply filter_In in Ic. destruct Ic as [Ic Q]. apply opt_is_iff in Q.
        apply Ne. symmetry. apply (pieces_apart r b s true c Ir Is Ic). apply (piece_desc s true Is). now apply up_next with x. }
    rewrite (G ps (incl_refl _) D1). now rewrite (proj2 (memN_iff s (map fst ps)) (piece_key s true Is)).
  Qed.
End Pieces.

Section Directed.
  Context {O M : Type}.
  Notation hugr := (hugr O M).
  Variables h other : hugr.
  Variable parent : option N.
  Variable children : list (N * directive).
  Hypothesis Wo : wf other.
  Hypothesis ND : NoDup (map fst children).
  Hypothesis A : acceptable other parent children.

  Definition pieces : list (N * bool) :=
    match parent with Some _ => [(h_entry other, true)] | None => [] end ++ map (fun c : N * directive => (fst c, is_add (snd c))) children.

  Lemma in_pieces : forall r b, In (r, b) pieces <-> (parent <> None /\ r = h_entry other /\ b = true) \/ (exists d, In (r, d) children /\ b = is_add d).
  Proof.
    intros r b. unfold pieces. rewrite in_app_iff, in_map_iff. split.
    - intros [I|([c d] & E & I)].
      + left. destruct parent; [|destruct I]. destruct I as [E|[]]. injection E as <- <-. repeat split. discriminate.
      + right. injection E as <- <-. now exists d.
    - intros [(P & -> & ->)|(d & I & ->)]; [left; destruct parent; [now left|congruence]|]. right. now exists (r, d).
  Qed.
  Lemma keys_pieces : map fst pieces = match parent with Some _ => [h_entry other] | None => [] end ++ map fst children.
  Proof. unfold pieces. rewrite map_app, map_map. cbn [fst]. f_equal. now destruct parent. Qed.
  Lemma key_pieces : forall r, In r (map fst pieces) <-> (parent <> None /\ r = h_entry other) \/ In r (map fst children).
  Proof.
    intros r. rewrite keys_pieces, in_app_iff. destruct parent as [p|]; cbn [In].
    - split; [intros [[<-|[]]|I]; [left; split; [discriminate|reflexivity]|now right]|]. intros [[_ ->]|I]; auto.
    - split; [intros [[]|I]; now right|]. intros [[X _]|I]; [congruence|now right].
  Qed.
  Lemma pieces_D1 : NoDup (map fst pieces).
  Proof.
    rewrite keys_pieces.
    assert (NE : parent <> None -> ~ In (h_entry other) (map fst children)) by (intros Np I; apply (child_below_entry other parent children Wo A (h_entry other) I Np); constructor).
    destruct parent as [p|]; [|exact ND]. cbn [app]. constructor; [|exact ND]. apply NE. discriminate.
  Qed.
  Lemma pieces_L : incl (map fst pieces) (h_nodes other).
  Proof.
    intros r I. apply key_pieces in I. destruct I as [[_ ->]|I]; [apply (wf_entry other Wo)|]. apply (ac_root _ _ _ A) in I. apply (wf_parent_live other Wo) in I. tauto.
  Qed.
  Lemma is_add_added : forall r d, In (r, d) children -> is_add d = true -> added children r.
  Proof. intros r [rs|tn] I E; [now exists rs|discriminate]. Qed.
  Lemma pieces_D2 : forall r s, In r (map fst pieces) -> In (s, true) pieces -> up (h_parent other) r s -> r = s.
  Proof.
    intros r s Ir Is U. apply key_pieces in Ir. apply in_pieces in Is. destruct Is as [(P & -> & _)|(d & Is & Ed)].
    - destruct Ir as [[_ ->]|Ir]; [reflexivity|]. exfalso. exact (child_below_entry other parent children Wo A r Ir P U).
    - symmetry in Ed. pose proof (is_add_added s d Is Ed) as Ad. pose proof (added_child children s Ad) as Ic.
      destruct Ir as [[P ->]|Ir].
      + exfalso. destruct (N.eq_dec (h_entry other) (h_root other)) as [E|E]; [rewrite (ac_whole _ _ _ A P E) in Ic; destruct Ic|]. exact (ac_above _ _ _ A P E s Ad U).
      + exact (top_only other Wo r s (ac_root _ _ _ A r Ir) (ac_root _ _ _ A s Ic) U).
  Qed.

  Section Order.
    Variable ps : list (N * bool).
    Hypothesis Pp : Permutation ps pieces.
    Lemma perm_key : forall r, In r (map fst ps) <-> In r (map fst pieces).
    Proof. intros r. split; intros I; [now apply (Permutation_in _ (Permutation_map fst Pp))|now apply (Permutation_in _ (Permutation_sym (Permutation_map fst Pp)))]. Qed.
    Lemma perm_in : forall r b, In (r, b) ps <-> In (r, b) pieces.
    Proof. intros r b. split; intros I; [now apply (Permutation_in _ Pp)|now apply (Permutation_in _ (Permutation_sym Pp))]. Qed.
    Lemma ps_D1 : NoDup (map fst ps).
    Proof. apply (Permutation_NoDup (Permutation_sym (Permutation_map fst Pp))). exact pieces_D1. Qed.
    Lemma ps_L : incl (map fst ps) (h_nodes other). Proof. intros r I. apply pieces_L. now apply perm_key. Qed.
    Lemma ps_D2 : forall r s, In r (map fst ps) -> In (s, true) ps -> up (h_parent other) r s -> r = s.
    Proof. intros r s Ir Is. apply pieces_D2; [now apply perm_key|now apply perm_in]. Qed.

    Lemma whole_iff : forall x, (exists r, In (r, true) ps /\ up (h_parent other) x r) <-> inserted other parent children x.
    Proof.
      intros x. unfold inserted, below. split.
      - intros (r & I & U). apply perm_in, in_pieces in I. destruct I as [(P & -> & _)|(d & I & E)]; [now left|]. right. exists r. split; [exact (is_add_added r d I (eq_sym E))|exact U].
      - intros [[P U]|(sn & (rs & I) & U)].
        + exists (h_entry other). split; [|exact U]. apply perm_in, in_pieces. left. auto.
        + exists sn. split; [|exact U]. apply perm_in, in_pieces. right. now exists (Add rs).
    Qed.
    Lemma ps_in : forall x, In x (nodes_of other ps) <-> inserted other parent children x \/ In x (map fst (substitutes children)).
    Proof.
      intros x. rewrite (pieces_in other Wo ps ps_L), whole_iff. split; (intros [I|I]; [now left|right]).
      - apply perm_in, in_pieces in I. destruct I as [(_ & _ & X)|(d & I & E)]; [discriminate|]. destruct d as [rs|tn]; [discriminate|].
        apply in_map_iff. exists (x, tn). split; [reflexivity|]. now apply substitutes_iff.
      - apply in_map_iff in I. destruct I as ([a tn] & <- & I). apply substitutes_iff in I. apply perm_in, in_pieces. right. now exists (UseExisting tn).
    Qed.

    Variable roots : list (N * N).
    Hypothesis Hr : Permutation roots (link_roots h other parent children).
    Lemma root_keys : map fst (link_roots h other parent children) = map fst pieces.
    Proof. rewrite keys_pieces. unfold link_roots. rewrite map_app, map_map. cbn [fst]. f_equal. now destruct parent. Qed.
    Lemma is_root_iff : forall c, is_root roots c = true <-> In c (map fst ps).
    Proof.
      intros c. unfold is_root. rewrite memN_iff, perm_key, <- root_keys. split; intros I; [now apply (Permutation_in _ (Permutation_map fst Hr))|now apply (Permutation_in _ (Permutation_sym (Permutation_map fst Hr)))].
    Qed.
    Lemma root_iff : forall r p, In (r, p) roots <-> (parent = Some p /\ r = h_entry other) \/ (p = h_root h /\ In r (map fst children)).
    Proof.
      intros r p. transitivity (In (r, p) (link_roots h other parent children)).
      { split; intros I; [now apply (Permutation_in _ Hr)|now apply (Permutation_in _ (Permutation_sym Hr))]. }
      unfold link_roots. rewrite in_app_iff, !in_map_iff. split.
      - intros [I|(c & E & I)].
        + destruct parent as [q|]; [|destruct I]. destruct I as [E|[]]. injection E as <- <-. now left.
        + injection E as <- <-. right. split; [reflexivity|]. exists c. auto.
      - intros [[E ->]|[-> (c & <- & I)]]; [left; rewrite E; now left|]. right. exists c. auto.
    Qed.
    Lemma roots_nodup : NoDup (map fst roots).
    Proof. apply (Permutation_NoDup (Permutation_sym (Permutation_map fst Hr))). rewrite root_keys. exact pieces_D1. Qed.
    Lemma ps_roots : incl (map fst roots) (nodes_of other ps).
    Proof.
      intros r I. assert (J : In r (map fst ps)) by (apply is_root_iff; now apply memN_iff). apply in_map_iff in J. destruct J as ([a [|]] & <- & J); apply (pieces_in other Wo ps ps_L); [left; exists a; split; [exact J|constructor]|now right].
    Qed.
    Lemma ps_closed : forall x, In x (nodes_of other ps) -> is_root roots x = false -> exists p, h_parent other x = Some p /\ In p (nodes_of other ps).
    Proof.
      intros x I R. assert (Nx : ~ In x (map fst ps)) by (rewrite <- is_root_iff; congruence). apply (pieces_in other Wo ps ps_L) in I. destruct I as [(r & I & U)|I]; [|exfalso; apply Nx; apply (in_map fst) in I; exact I].
      inversion U as [|? p ? E U']; subst; [exfalso; apply Nx; apply (in_map fst) in I; exact I|]. exists p. split; [exact E|]. apply (pieces_in other Wo ps ps_L). left. now exists r.
    Qed.
    Lemma ps_kids : forall x, inserted other parent children x ->
      filter (fun c => negb (is_root roots c) && has_parent other x c) (nodes_of other ps) = h_kids other x.
    Proof. intros x I. apply whole_iff in I. destruct I as (s & Is & U). exact (pieces_kids other Wo ps ps_D1 ps_L ps_D2 roots x s is_root_iff Is U). Qed.
  End Order.
End Directed.

(** ** Copying *)
Section View.
  Context {O M : Type}.
  Variable o_default : O.
  Variable o_in o_out : O -> nat.
  Variable m_empty : M -> bool.
  Notation hugr := (hugr O M).

  Lemma view_linked : forall su sr so (h other : hugr) fresh parent children,
    (forall l, Permutation (su l) l) -> (forall l, Permutation (sr l) l) -> (forall l, Permutation (so l) l) ->
    wf h -> wf other -> NoDup (map fst children) -> acceptable other parent children -> linkable h other parent children ->
    NoDup fresh -> (forall y, In y fresh -> ~ In y (h_nodes h)) -> length (h_nodes other) <= length fresh ->
    exists h' m f, insert_link_view o_default o_in o_out m_empty su sr so h other fresh parent children = Linked (h', m) /\
      merged h other parent children f m h' /\
      (forall x v, inserted other parent children x -> h_meta other x = Some v -> m_empty v = false -> h_meta h' (f x) = Some v).
  Proof.
    intros su sr so h other fresh parent children Su Sr So W Wo ND A K Df Fr Len.
    pose proof (Permutation_refl (pieces other parent children)) as Pp.
    assert (Hr : Permutation (so (link_roots h other parent children)) (link_roots h other parent children)) by apply So.
    set (roots := so (link_roots h other parent children)) in *.
    set (nodes := nodes_of other (pieces other parent children)).
    assert (En : view_nodes other parent children = nodes).
    { unfold view_nodes, nodes, nodes_of, pieces. rewrite flat_map_app. f_equal; [destruct parent; cbn [flat_map fst snd]; rewrite ?app_nil_r; reflexivity|].
      clear. induction children as [|c l IH]; [reflexivity|]. cbn [map flat_map fst snd]. now rewrite IH. }
    pose proof (pieces_nodup other Wo _ (ps_D1 other parent children Wo ND A _ Pp) (ps_L other parent children Wo A _ Pp) (ps_D2 other parent children Wo A _ Pp)) as Dn. fold nodes in Dn.
    pose proof (pieces_live other Wo _ (ps_L other parent children Wo A _ Pp)) as Ln. fold nodes in Ln.
    destruct (insert_view_forest_faithful O M o_default o_in o_out m_empty h other nodes fresh roots W Wo Dn Ln Df Fr) as (h1 & m & f & E & Hm & G & W1 & Ho & Hv & _).
    { pose proof (NoDup_incl_length Dn Ln). lia. }
    { exact (roots_nodup h other parent children Wo ND A roots Hr). }
    { exact (ps_roots h other parent children Wo A _ Pp roots Hr). }
    { intros r p I. apply (root_iff h other parent children A roots Hr) in I. destruct I as [[Ep _]|[-> _]]; [now apply (lk_parent _ _ _ _ K)|apply (wf_root h W)]. }
    { exact (ps_closed h other parent children Wo A _ Pp roots Hr). }
    pose proof (check_spec other Wo parent children ND) as C.
    destruct (check_directives other parent children) as [tr|e] eqn:Ec; [|exfalso; exact (justified_wrong other parent children e C A)].
    destruct C as (_ & Eu & Er).
    destruct (merge_done o_default h other parent children W Wo ND A K nodes roots f h1 m) with (use := su (t_use tr)) (rep := sr (t_rep tr)) as (h' & m' & E' & Mg & Mt); auto.
    - exact (ps_in other parent children Wo A _ Pp).
    - intros x I. rewrite (gr_kids _ _ _ _ _ _ G x); [f_equal; exact (ps_kids h other parent children Wo ND A _ Pp roots Hr x I)|].
      apply (ps_in other parent children Wo A _ Pp). now left.
    - rewrite Eu. apply Su.
    - rewrite Er. apply Sr.
    - exists h', m', f. split; [|split; [exact Mg|]].
      + unfold insert_link_view. rewrite Ec, En. fold roots. rewrite E. unfold shuffled. now rewrite E'.
      + intros x v I Ev Nv. rewrite (Mt x I). apply Hv; auto. apply (ps_in other parent children Wo A _ Pp). now left.
  Qed.
End View.
