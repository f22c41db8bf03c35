(** Inlining a dataflow graph of a valid HUGR does what it should. *)
From Coq Require Import List Bool NArith Arith Lia Permutation Relations.
From Verif Require Import TypesModel GraphModel GraphSpec GraphProofs GraphRemove GraphProps Graphs InsertForest OpModel OpSpec OpProofs OpProps
  DeadModel DeadProofs ValidModel ValidSpec ValidProofs ValidEdges ValidProps InlineModel InlineSpec InlineProofs InlineFacts.
Import ListNotations.

(** ** Moving the children *)
Record moved {M} (h0 : hugr op M) (n parent : N) (done : list N) (h : hugr op M) : Prop := {
  mv_wf : wf h;
  mv_same : h_nodes h = h_nodes h0 /\ h_ops h = h_ops h0 /\ h_meta h = h_meta h0 /\ h_links h = h_links h0 /\ h_in h = h_in h0 /\ h_out h = h_out h0 /\
    h_root h = h_root h0 /\ h_entry h = h_entry h0;
  mv_parent : forall m, h_parent h m = if memN m done then Some parent else h_parent h0 m;
  mv_kids : forall m, h_kids h m = if N.eqb m parent then h_kids h0 parent ++ done else if N.eqb m n then filter (fun c => negb (memN c done)) (h_kids h0 n) else h_kids h0 m }.

Lemma move_children : forall {M} (h0 : hugr op M) n parent, wf h0 -> h_parent h0 n = Some parent ->
  forall rest done h, moved h0 n parent done h -> NoDup (done ++ rest) -> (forall c, In c (done ++ rest) -> h_parent h0 c = Some n) ->
  exists h', each (fun h c => set_parent h c parent) rest h = Some h' /\ moved h0 n parent (done ++ rest) h'.
Proof.
  intros M h0 n parent W Pn. assert (Np : n <> parent) by (intros <-; apply (no_cycle h0 W n n Pn); constructor).
  induction rest as [|c rest IH]; intros done h Mv ND Ch; [exists h; rewrite app_nil_r; auto|]. cbn [each].
  pose proof (mv_wf _ _ _ _ _ Mv) as Wh. destruct (mv_same _ _ _ _ _ Mv) as (S1 & S2 & S3 & S4 & S5 & S6 & S7 & S8).
  assert (Pc : h_parent h0 c = Some n) by (apply Ch; apply in_app_iff; right; now left).
  assert (Nc : ~ In c done). { intros I. apply NoDup_remove_2 in ND. apply ND. apply in_app_iff. now left. }
  assert (Nn : ~ In n done). { intros I. assert (X : h_parent h0 n = Some n) by (apply Ch; apply in_app_iff; now left). apply (no_cycle h0 W n n X). constructor. }
  assert (Pc' : h_parent h c = Some n) by (rewrite (mv_parent _ _ _ _ _ Mv); apply memN_false in Nc; now rewrite Nc).
  assert (Pn' : h_parent h n = Some parent) by (rewrite (mv_parent _ _ _ _ _ Mv); apply memN_false in Nn; now rewrite Nn).
  destruct (wf_parent_live h0 W c n Pc) as (Ic & _). destruct (wf_parent_live h0 W n parent Pn) as (_ & Ip & _).
  destruct (proj2 (set_parent_iff h c parent Wh)) as (h1 & E1).
  { rewrite S1. split; [exact Ic|]. split; [exact Ip|]. intros U. apply (no_cycle h Wh n parent Pn'). eapply up_trans; [exact U|]. apply up_next with n; [exact Pc'|constructor]. }
  rewrite E1. assert (W1 : wf h1) by (eapply (set_parent_wf OModule (fun _ => 0) (fun _ => 0)); eassumption).
  destruct (set_parent_effect _ _ h h1 c parent Wh E1) as (A1 & A2 & A3 & A4 & A5 & A6 & A7 & A8 & A9 & A10 & A11 & A12).
  replace (done ++ c :: rest) with ((done ++ [c]) ++ rest) in * by now rewrite <- app_assoc.
  apply IH; [|exact ND|exact Ch]. constructor.
  - exact W1.
  - repeat split; congruence.
  - intros m. rewrite memN_app, memN_cons. cbn [memN existsb]. destruct (N.eqb_spec m c) as [->|Nm]; [now rewrite orb_true_r|].
    rewrite A2 by exact Nm. cbn [orb]. rewrite orb_false_r. apply (mv_parent _ _ _ _ _ Mv).
  - assert (NcP : ~ In c (h_kids h0 parent)) by (rewrite (wf_kids h0 W); congruence).
    intros m. destruct (N.eqb_spec m parent) as [->|Nm].
    + rewrite A3, (mv_kids _ _ _ _ _ Mv), N.eqb_refl. rewrite delN_id by (rewrite in_app_iff; tauto). now rewrite <- app_assoc.
    + rewrite A4 by exact Nm. rewrite (mv_kids _ _ _ _ _ Mv). destruct (N.eqb_spec m parent) as [|_]; [contradiction|].
      destruct (N.eqb_spec m n) as [->|Nmn].
      * unfold delN. rewrite filter_filter. apply filter_ext. intros x. rewrite memN_app, memN_cons. cbn [memN existsb]. rewrite orb_false_r, negb_orb. reflexivity.
      * apply delN_id. rewrite (wf_kids h0 W). congruence.
Qed.

Lemma facts_transfer : forall {M} (h h1 : hugr op M) n i o ki ko src so, h_nodes h1 = h_nodes h -> h_ops h1 = h_ops h -> h_links h1 = h_links h -> h_in h1 = h_in h -> h_out h1 = h_out h ->
  boundary_facts h n i o ki ko src so -> boundary_facts h1 n i o ki ko src so.
Proof.
  intros M h h1 n i o ki ko src so E1 E2 E3 E4 E5 [F1 F2 F3 F4 F5 F6 F7 F8 F9 F10 F11 F12]. unfold can_out, can_in, oo, oi, out_port, in_port in *.
  constructor; unfold can_out, can_in, oo, oi, out_port, in_port; rewrite ?E1, ?E2, ?E3, ?E4, ?E5; assumption.
Qed.

Section Result.
  Context {M : Type}.
  Variable env : N -> N -> option typedef.
  Variable defs : N -> N -> opsig.
  Variable h : hugr op M.
  Hypothesis W : wf h.
  Hypothesis V : valid env defs h.
  Variables n parent i o : N.
  Variable rest : list N.
  Variables ins outs : list ty.
  Hypothesis D : dfg h n parent i o rest.
  Hypothesis Op : h_ops h n = ODfg (ins, outs).
  Notation ki := (length ins).
  Notation ko := (length outs).
  Let src := source h n.
  Let so := source h o.
  Let F : boundary_facts h n i o ki ko src so := dfg_facts env defs h W V n parent i o rest ins outs D Op.
  Notation inner := (inner h n i ki src).
  Notation early := (early h n i ki src).
  Notation late := (late h n i o ki ko src).
  Notation via_in := (via_in i ki src).
  Notation via_out := (via_out n i o ki ko src so).

  Definition kept_link (l : link) : bool :=
    negb (memN (fst (snd l)) [n; i; o]) && negb (N.eqb (fst (fst l)) i && Nat.leb ki (snd (fst l))) && negb (N.eqb (fst (fst l)) n && Nat.leb ko (snd (fst l))).

  Definition clear_of (l : link) : bool := negb (memN (fst (fst l)) [n; o; i] || memN (fst (snd l)) [n; o; i]).

  Lemma three : forall x, memN x [n; o; i] = memN x [n; i; o].
  Proof. intros x. rewrite !memN_cons. cbn [memN existsb]. destruct (N.eqb x n), (N.eqb x o), (N.eqb x i); reflexivity. Qed.
  Lemma clear_of_iff : forall l, clear_of l = true <-> ~ In (fst (fst l)) [n; i; o] /\ ~ In (fst (snd l)) [n; i; o].
  Proof. intros l. unfold clear_of. rewrite !three, negb_orb, andb_true_iff, !negb_true_iff, !memN_false. reflexivity. Qed.
  Lemma outside : forall x, x <> n -> x <> i -> x <> o -> ~ In x [n; i; o].
  Proof. intros x A B C [X|[X|[X|[]]]]; congruence. Qed.

  Lemma via_both_snd : forall l, snd (via_out (via_in l)) = snd l.
  Proof. intros l. unfold InlineProofs.via_out. destruct (_ && _); cbn [snd]; apply via_in_snd. Qed.

  Lemma kept_eq : filter clear_of (map via_out (filter (fun l => negb (into_o o ko l)) inner)) = map (fun l => via_out (via_in l)) (filter kept_link (h_links h)).
  Proof.
    rewrite (inner_eq h n i o ki ko src so F). rewrite !filter_map, map_map, !filter_filter. f_equal.
    apply filter_in_ext. intros [[s a] [t b]] I. destruct (bf_distinct _ _ _ _ _ _ _ _ F) as (D1 & D2 & D3).
    apply eq_true_iff_eq. unfold kept_link. rewrite !andb_true_iff, clear_of_iff. unfold into_n, into_o. rewrite !via_in_snd.
    rewrite !via_both_snd. cbn [fst snd].
    rewrite !negb_true_iff, memN_false, !andb_false_iff, !N.eqb_neq, !Nat.leb_gt.
    assert (Z : ~ In t [n; i; o] -> (~ In (fst (fst (via_out (via_in ((s, a), (t, b)))))) [n; i; o] <-> (s <> i \/ a < ki) /\ (s <> n \/ a < ko))).
    { intros Nt. unfold InlineProofs.via_in, InlineProofs.via_out. cbn [fst snd].
      destruct (N.eqb_spec s i) as [->|Ni]; cbn [andb].
      - destruct (Nat.ltb_spec a ki) as [La|La]; cbn [fst snd].
        + destruct (src_facts h n i o ki ko src so F a La) as (B1 & B2 & B3 & _). apply N.eqb_neq in B1. rewrite B1. cbn [andb fst]. apply N.eqb_neq in B1.
          split; [|intros _; now apply outside]. intros _. split; [now right|left; congruence].
        + destruct (N.eqb_spec i n) as [X|_]; [congruence|]. cbn [andb fst]. split; [|lia]. intros X. exfalso. apply X. right. now left.
      - cbn [fst snd]. destruct (N.eqb_spec s n) as [->|Nn]; cbn [andb].
        + destruct (Nat.ltb_spec a ko) as [La|La]; cbn [fst snd].
          * destruct (so_facts h n i o ki ko src so F a La) as (_ & B1 & B2 & B3 & _). split; [auto|]. intros _. now apply outside.
          * split; [|lia]. intros X. exfalso. apply X. now left.
        + cbn [fst]. split; [auto|]. intros _. apply outside; try assumption. intros ->. exact (bf_from_out _ _ _ _ _ _ _ _ F _ I eq_refl). }
    split.
    - intros (A1 & A2 & A3 & A4). split; [split|]; [exact A4|apply Z; assumption|apply Z; assumption].
    - intros ((A1 & A2) & A3). split; [|split; [|split; [apply Z; auto|exact A1]]]; left; intros ->; apply A1; cbn; auto.
  Qed.

  Lemma kind_n_out : forall a k, kind_at h n Out a k -> (a = ko <-> k = EOrder) /\ a <= ko /\ flow_kind k.
  Proof. intros a k (ks & P & E). rewrite (ports_unique _ _ _ _ P (n_out_ports h n ins outs Op)) in E. apply flow_list in E. tauto. Qed.
  Lemma kind_n_in : forall a k, kind_at h n Inc a k -> (a = ki <-> k = EOrder) /\ a <= ki /\ flow_kind k.
  Proof. intros a k (ks & P & E). rewrite (ports_unique _ _ _ _ P (n_in_ports h n ins outs Op)) in E. apply flow_list in E. tauto. Qed.
  Lemma kind_i_out : forall a k, kind_at h i Out a k -> (a = ki <-> k = EOrder) /\ a <= ki /\ flow_kind k.
  Proof. intros a k (ks & P & E). rewrite (ports_unique _ _ _ _ P (i_out_ports env defs h W V n parent i o rest ins outs D Op)) in E. apply flow_list in E. tauto. Qed.
  Lemma kind_o_in : forall a k, kind_at h o Inc a k -> (a = ko <-> k = EOrder) /\ a <= ko /\ flow_kind k.
  Proof. intros a k (ks & P & E). rewrite (ports_unique _ _ _ _ P (o_in_ports env defs h W V n parent i o rest ins outs D Op)) in E. apply flow_list in E. tauto. Qed.

  Lemma kept_iff : forall l, In l (h_links h) -> kept_link l = true <-> stays h n i o l.
  Proof.
    intros [[s a] [t b]] I. unfold kept_link, stays. cbn [fst snd]. rewrite !andb_true_iff, !negb_true_iff, memN_false, !andb_false_iff, !N.eqb_neq, !Nat.leb_gt.
    destruct (v_links _ _ _ V s a t b I) as (k & Ks & _).
    assert (Z : ((s <> i \/ a < ki) /\ (s <> n \/ a < ko)) <-> ~ (In s [n; i] /\ kind_at h s Out a EOrder)).
    { split.
      - intros [A B] [[<-|[<-|[]]] K]; [apply kind_n_out in K|apply kind_i_out in K]; destruct K as (K & _); destruct K as [_ K]; specialize (K eq_refl);
          [destruct B as [B|B]|destruct A as [A|A]]; (congruence || lia).
      - intros N_. split.
        + destruct (N.eq_dec s i) as [->|]; [right|now left]. destruct (kind_i_out a k Ks) as (A & B & _). destruct (Nat.eq_dec a ki) as [E|]; [|lia].
          exfalso. apply N_. split; [right; now left|]. apply A in E. now subst k.
        + destruct (N.eq_dec s n) as [->|]; [right|now left]. destruct (kind_n_out a k Ks) as (A & B & _). destruct (Nat.eq_dec a ko) as [E|]; [|lia].
          exfalso. apply N_. split; [now left|]. apply A in E. now subst k. }
    tauto.
  Qed.

  Lemma kept_resolves : forall l, In l (h_links h) -> kept_link l = true -> snd (via_out (via_in l)) = snd l /\ resolves h n i o (fst l) (fst (via_out (via_in l))).
  Proof.
    intros [[s a] [t b]] I K. split; [unfold InlineProofs.via_out; destruct (_ && _); cbn [snd]; apply via_in_snd|].
    unfold kept_link in K. cbn [fst snd] in K. rewrite !andb_true_iff, !negb_true_iff, memN_false, !andb_false_iff, !N.eqb_neq, !Nat.leb_gt in K. destruct K as [[Nt A] B].
    unfold InlineProofs.via_in, InlineProofs.via_out. cbn [fst snd].
    destruct (N.eqb_spec s i) as [->|Ni]; cbn [andb].
    - destruct A as [A|A]; [congruence|]. rewrite (proj2 (Nat.ltb_lt _ _) A). cbn [fst snd].
      destruct (src_facts h n i o ki ko src so F a A) as (B1 & B2 & B3 & _ & _ & B4). pose proof B1 as B1'. apply N.eqb_neq in B1'. rewrite B1'. cbn [andb fst].
      apply rs_input with (src a); [exact B4|]. now apply rs_here.
    - cbn [fst snd]. destruct (N.eqb_spec s n) as [->|Nn]; cbn [andb].
      + destruct B as [B|B]; [congruence|]. rewrite (proj2 (Nat.ltb_lt _ _) B). cbn [fst snd].
        destruct (so_facts h n i o ki ko src so F a B) as (B0 & B1 & B2 & B3 & _ & [[B4 B5]|(B4 & B5 & B6)]); apply rs_output with (so a); try exact B0.
        * rewrite B5. apply rs_here; [now rewrite B5 in B1|exact B4].
        * rewrite B6. destruct (so a) as [x p]. cbn [fst snd] in *. subst x. destruct (src_facts h n i o ki ko src so F p B5) as (C1 & C2 & C3 & _ & _ & C4).
          apply rs_input with (src p); [exact C4|]. now apply rs_here.
      + cbn [fst]. now apply rs_here.
  Qed.

  (** ** Order edges *)
  Lemma order_edge_ord : forall s t a' b' k k', In s (h_nodes h) -> In t (h_nodes h) ->
    kind_at h s Out a' k -> flow_kind k -> kind_at h t Inc b' k' -> flow_kind k' -> order_edge h s t (ord h s t) /\ forall l, order_edge h s t l -> l = ord h s t.
  Proof.
    intros s t a' b' k k' Is It Ks Fk Kt Fk'. destruct (flow_out env defs h V s a' k Is Ks Fk) as (_ & A & A'). destruct (flow_in env defs h V t b' k' It Kt Fk') as (_ & B & B'). split.
    - exists (oo h s), (oi h t). auto.
    - intros l (x & y & -> & Kx & Ky). unfold ord. now rewrite (A' _ Kx), (B' _ Ky).
  Qed.

  Lemma flow_link : forall s a t b, In ((s, a), (t, b)) (h_links h) -> In s [n; i] \/ In t [n; o] -> exists k, kind_at h s Out a k /\ kind_at h t Inc b k /\ flow_kind k.
  Proof.
    intros s a t b L H. destruct (v_links _ _ _ V s a t b L) as (k & Ks & Kt & _). exists k. split; [exact Ks|]. split; [exact Kt|].
    destruct H as [[<-|[<-|[]]]|[<-|[<-|[]]]]; [now apply kind_n_out in Ks|now apply kind_i_out in Ks|now apply kind_n_in in Kt|now apply kind_o_in in Kt].
  Qed.
  Lemma order_to_n : forall s, order_link h s n <-> exists a, In ((s, a), (n, ki)) (h_links h).
  Proof.
    intros s. split.
    - intros (a & b & L & K). destruct (v_links _ _ _ V s a n b L) as (k & Ks & Kt & _). rewrite (kind_unique h _ _ _ _ _ Ks K) in Kt. apply kind_n_in in Kt.
      destruct Kt as ((_ & X) & _). rewrite (X eq_refl) in L. eauto.
    - intros (a & L). exists a, ki. split; [exact L|]. destruct (v_links _ _ _ V s a n _ L) as (k & Ks & Kt & _). apply kind_n_in in Kt. destruct Kt as ((X & _) & _). now rewrite (X eq_refl) in Ks.
  Qed.
  Lemma order_to_o : forall s, order_link h s o <-> exists a, In ((s, a), (o, ko)) (h_links h).
  Proof.
    intros s. split.
    - intros (a & b & L & K). destruct (v_links _ _ _ V s a o b L) as (k & Ks & Kt & _). rewrite (kind_unique h _ _ _ _ _ Ks K) in Kt. apply kind_o_in in Kt.
      destruct Kt as ((_ & X) & _). rewrite (X eq_refl) in L. eauto.
    - intros (a & L). exists a, ko. split; [exact L|]. destruct (v_links _ _ _ V s a o _ L) as (k & Ks & Kt & _). apply kind_o_in in Kt. destruct Kt as ((X & _) & _). now rewrite (X eq_refl) in Ks.
  Qed.
  Lemma order_from_i : forall t, order_link h i t <-> exists b, In ((i, ki), (t, b)) (h_links h).
  Proof.
    intros t. split.
    - intros (a & b & L & K). apply kind_i_out in K. destruct K as ((_ & X) & _). rewrite (X eq_refl) in L. eauto.
    - intros (b & L). exists ki, b. split; [exact L|]. destruct (v_links _ _ _ V i _ t b L) as (k & Ks & _ & _). pose proof Ks as Ks'. apply kind_i_out in Ks. destruct Ks as ((X & _) & _). now rewrite (X eq_refl) in Ks'.
  Qed.
  Lemma order_from_n : forall t, order_link h n t <-> exists b, In ((n, ko), (t, b)) (h_links h).
  Proof.
    intros t. split.
    - intros (a & b & L & K). apply kind_n_out in K. destruct K as ((_ & X) & _). rewrite (X eq_refl) in L. eauto.
    - intros (b & L). exists ko, b. split; [exact L|]. destruct (v_links _ _ _ V n _ t b L) as (k & Ks & _ & _). pose proof Ks as Ks'. apply kind_n_out in Ks. destruct Ks as ((X & _) & _). now rewrite (X eq_refl) in Ks'.
  Qed.
  Lemma value_of : forall k, flow_kind k -> k <> EOrder -> exists y, k = EValue y.
  Proof. intros [|y|y|y|] K N_; try contradiction; eauto. Qed.
  Lemma value_from_n : forall t, value_link h n t <-> exists p b, p < ko /\ In ((n, p), (t, b)) (h_links h).
  Proof.
    intros t. split.
    - intros (a & b & y & L & K). apply kind_n_out in K. destruct K as ((X & _) & Le & _). exists a, b. split; [|exact L]. destruct (Nat.eq_dec a ko) as [E|]; [apply X in E; discriminate|lia].
    - intros (p & b & Lp & L). destruct (v_links _ _ _ V n _ t b L) as (k & Ks & _ & _). pose proof Ks as Ks'. apply kind_n_out in Ks. destruct Ks as ((_ & X) & _ & Fk).
      destruct (value_of k Fk) as (y & ->); [intros E; specialize (X E); lia|]. exists p, b, y. auto.
  Qed.
  Lemma src_link : forall s a p, In ((s, a), (n, p)) (h_links h) -> p < ki -> src p = (s, a).
  Proof.
    intros s a p L Lp. destruct (bf_in _ _ _ _ _ _ _ _ F p Lp) as (E & _).
    assert (X : In ((s, a), (n, p)) (filter (into (n, p)) (h_links h))) by (apply filter_In; split; [exact L|now apply into_iff]). rewrite E in X. destruct X as [X|[]]. congruence.
  Qed.
  Lemma value_to_n : forall s, value_link h s n <-> exists p, p < ki /\ fst (src p) = s.
  Proof.
    intros s. split.
    - intros (a & b & y & L & K). destruct (v_links _ _ _ V s a n b L) as (k & Ks & Kt & _). rewrite (kind_unique h _ _ _ _ _ Ks K) in Kt. apply kind_n_in in Kt.
      destruct Kt as ((X & _) & Le & _). assert (Lb : b < ki) by (destruct (Nat.eq_dec b ki) as [E|]; [apply X in E; discriminate|lia]).
      exists b. split; [exact Lb|]. now rewrite (src_link _ _ _ L Lb).
    - intros (p & Lp & <-). destruct (src_facts h n i o ki ko src so F p Lp) as (_ & _ & _ & _ & _ & L). destruct (src p) as [s a]. cbn [fst].
      destruct (v_links _ _ _ V s a n p L) as (k & Ks & Kt & _). apply kind_n_in in Kt. destruct Kt as ((_ & X) & _ & Fk).
      destruct (value_of k Fk) as (y & ->); [intros E; specialize (X E); lia|]. exists a, p, y. auto.
  Qed.

  Lemma early_iff : forall l, early l <-> exists s t, l = ord h s t /\ (order_link h s n /\ linked h i t \/ value_link h s n /\ order_link h i t).
  Proof.
    intros l. unfold InlineProofs.early. split.
    - intros [(s & t & a & b & c & I1 & I2 & ->)|(p & t & c & Lp & I2 & ->)].
      + exists s, t. split; [reflexivity|]. left. split; [apply order_to_n; eauto|exists b, c; exact I2].
      + exists (fst (src p)), t. split; [reflexivity|]. right. split; [apply value_to_n; eauto|apply order_from_i; eauto].
    - intros (s & t & -> & [[A (b & c & B)]|[A B]]).
      + apply order_to_n in A. destruct A as (a & A). left. exists s, t, a, b, c. auto.
      + apply value_to_n in A. apply order_from_i in B. destruct A as (p & Lp & <-), B as (c & B). right. exists p, t, c. auto.
  Qed.

  Lemma ord_inj : forall s t s' t', ord h s t = ord h s' t' -> s = s' /\ t = t'.
  Proof. intros s t s' t' E. unfold ord in E. injection E as -> _ -> _. auto. Qed.

  (** The sources of the last loops. *)
  Lemma inner_ends : forall s a b, s <> i -> In ((s, a), (o, b)) inner <->
    In ((s, a), (o, b)) (h_links h) \/ exists p, p < ki /\ In ((i, p), (o, b)) (h_links h) /\ In ((s, a), (n, p)) (h_links h).
  Proof.
    intros s a b Ni. destruct (bf_distinct _ _ _ _ _ _ _ _ F) as (D1 & D2 & D3). split.
    - intros I. destruct (inner_cases h n i o ki ko src so F _ I) as [_ [[X _]|(p & Lp & X & E)]]; [now left|]. right. exists p. cbn [fst snd] in *. split; [exact Lp|]. split; [exact X|].
      destruct (src_facts h n i o ki ko src so F p Lp) as (_ & _ & _ & _ & _ & L). now rewrite <- E in L.
    - rewrite (inner_eq h n i o ki ko src so F). intros H.
      assert (G : forall l, In l (h_links h) -> fst (snd l) = o -> In (via_in l) (map via_in (filter (fun l => negb (into_n n ki l)) (h_links h)))).
      { intros [x [y z]] I E. cbn [fst snd] in E. subst y. apply in_map. apply filter_In. split; [exact I|]. unfold into_n. cbn [fst snd]. destruct (N.eqb_spec o n) as [E|_]; [congruence|reflexivity]. }
      destruct H as [I|(p & Lp & I & L)]; specialize (G _ I eq_refl); unfold InlineProofs.via_in in G at 1; cbn [fst snd] in G.
      + destruct (N.eqb_spec s i) as [E|_]; [contradiction|exact G].
      + rewrite N.eqb_refl, (proj2 (Nat.ltb_lt _ _) Lp) in G. cbn [andb] in G. now rewrite (src_link _ _ _ L Lp) in G.
  Qed.

  Lemma last_iff : forall s, s <> i -> (exists a, In ((s, a), (o, ko)) inner \/ early ((s, a), (o, ko))) <-> last h n i o s.
  Proof.
    intros s Ni. destruct (bf_order _ _ _ _ _ _ _ _ F) as (_ & _ & _ & O4). split.
    - intros (a & [I|E]).
      + apply (inner_ends s a ko Ni) in I. destruct I as [I|(p & Lp & I & _)]; [apply last_order; [exact Ni|apply order_to_o; eauto]|].
        exfalso. destruct (v_links _ _ _ V i p o ko I) as (k & Ks & Kt & _). apply kind_o_in in Kt. destruct Kt as ((X & _) & _). rewrite (X eq_refl) in Ks. apply kind_i_out in Ks. destruct Ks as ((_ & Y) & _). specialize (Y eq_refl). lia.
      + apply early_iff in E. destruct E as (s' & t & E & H). injection E as -> _ <- _. destruct H as [[A B]|[A B]]; [now apply last_enter|now apply last_feed].
    - intros [N_ A|A B|A B].
      + apply order_to_o in A. destruct A as (a & A). exists a. left. apply inner_ends; [exact Ni|now left].
      + exists (oo h s). right. apply early_iff. exists s, o. split; [unfold ord; now rewrite O4|]. now left.
      + exists (oo h s). right. apply early_iff. exists s, o. split; [unfold ord; now rewrite O4|]. now right.
  Qed.

  Lemma ends_iff : forall s, s <> i -> (exists a b, In ((s, a), (o, b)) inner \/ early ((s, a), (o, b))) <-> ends h n i o s.
  Proof.
    intros s Ni. split.
    - intros (a & b & [I|E]).
      + apply (inner_ends s a b Ni) in I. destruct I as [I|(p & Lp & I & L)]; [apply ends_link; [exact Ni|exists a, b; exact I]|].
        destruct (v_links _ _ _ V s a n p L) as (k & Ks & Kt & _). apply kind_n_in in Kt. destruct Kt as ((_ & X) & _ & Fk).
        destruct (value_of k Fk) as (y & ->); [intros E; specialize (X E); lia|]. eapply ends_through; eassumption.
      + apply ends_last. apply early_iff in E. destruct E as (s' & t & E & H). injection E as -> _ <- _. destruct H as [[A B]|[A B]]; [now apply last_enter|now apply last_feed].
    - intros [N_ (a & b & A)|p q a y A B K|A].
      + exists a, b. left. apply inner_ends; [exact Ni|now left].
      + exists a, q. left. apply inner_ends; [exact Ni|]. right. exists p. split; [|auto]. destruct (v_links _ _ _ V s a n p B) as (k & Ks & Kt & _).
        rewrite (kind_unique h _ _ _ _ _ Ks K) in Kt. apply kind_n_in in Kt. destruct Kt as ((X & _) & Le & _). destruct (Nat.eq_dec p ki) as [E|]; [apply X in E; discriminate|lia].
      + apply last_iff in A; [|exact Ni]. destruct A as (a & A). exists a, ko. exact A.
  Qed.

  Lemma source_node : forall s, ends h n i o s -> s <> n /\ s <> i /\ s <> o /\ exists a k, In s (h_nodes h) /\ kind_at h s Out a k /\ flow_kind k.
  Proof.
    assert (T : forall s a b, In ((s, a), (n, b)) (h_links h) -> s <> n /\ s <> i /\ s <> o /\ exists a k, In s (h_nodes h) /\ kind_at h s Out a k /\ flow_kind k).
    { intros s a b L. destruct (to_n env defs h W V n parent i o rest ins outs D Op s a b L) as (A & B & C). split; [exact A|]. split; [exact B|]. split; [exact C|].
      destruct (flow_link s a n b L) as (k & Ks & _ & Fk); [right; now left|]. exists a, k. split; [now apply link_nodes in L|auto]. }
    assert (T' : forall s, last h n i o s -> s <> n /\ s <> i /\ s <> o /\ exists a k, In s (h_nodes h) /\ kind_at h s Out a k /\ flow_kind k).
    { assert (O' : forall s, s <> i -> linked h s o -> s <> n /\ s <> i /\ s <> o /\ exists a k, In s (h_nodes h) /\ kind_at h s Out a k /\ flow_kind k).
      { intros s Ni (a & b & L). split; [exact (bf_to_out _ _ _ _ _ _ _ _ F _ L eq_refl)|]. split; [exact Ni|]. split; [exact (bf_from_out _ _ _ _ _ _ _ _ F _ L)|].
        destruct (flow_link s a o b L) as (k & Ks & _ & Fk); [right; right; now left|]. exists a, k. split; [now apply link_nodes in L|auto]. }
      intros s [Ni (a & b & L & _)|_ (a & b & L & _)|_ (a & b & y & L & _)]; [apply O'; [exact Ni|exists a, b; exact L]|now apply T in L|now apply T in L]. }
    intros s [Ni (a & b & L)|p q a y A B K|A]; [|now apply T in B|now apply T'].
    split; [exact (bf_to_out _ _ _ _ _ _ _ _ F _ L eq_refl)|]. split; [exact Ni|]. split; [exact (bf_from_out _ _ _ _ _ _ _ _ F _ L)|].
    destruct (flow_link s a o b L) as (k & Ks & _ & Fk); [right; right; now left|]. exists a, k. split; [now apply link_nodes in L|auto].
  Qed.

  Lemma orders_iff : forall l, (early l \/ late l) /\ clear_of l = true <-> exists s t, ordered h n i o s t /\ order_edge h s t l.
  Proof.
    assert (Fl : forall t, linked h n t -> In t (h_nodes h) /\ t <> n /\ t <> i /\ t <> o /\ exists b k, kind_at h t Inc b k /\ flow_kind k).
    { intros t (a & b & L). pose proof (bf_from _ _ _ _ _ _ _ _ F _ L eq_refl) as X. cbn in X. split; [now apply link_nodes in L|].
      split; [intros ->; auto|]. split; [intros ->; auto|]. split; [intros ->; auto|]. destruct (flow_link n a t b L) as (k & _ & Kt & Fk); [left; now left|]. eauto. }
    assert (Fi : forall t, linked h i t -> In t (h_nodes h) /\ t <> n /\ t <> i /\ exists b k, kind_at h t Inc b k /\ flow_kind k).
    { intros t (a & b & L). split; [now apply link_nodes in L|]. split; [exact (bf_from_in _ _ _ _ _ _ _ _ F _ L eq_refl)|]. split; [exact (bf_into_in _ _ _ _ _ _ _ _ F _ L)|].
      destruct (flow_link i a t b L) as (k & _ & Kt & Fk); [left; right; now left|]. eauto. }
    assert (Ol : forall s t, order_link h s t -> linked h s t) by (intros s t (a & b & L & _); exists a, b; exact L).
    assert (Vl : forall s t, value_link h s t -> linked h s t) by (intros s t (a & b & y & L & _); exists a, b; exact L).
    assert (Fs : forall s, linked h s n -> s <> n /\ s <> i /\ s <> o /\ exists a k, In s (h_nodes h) /\ kind_at h s Out a k /\ flow_kind k).
    { intros s (a & b & L). destruct (to_n env defs h W V n parent i o rest ins outs D Op s a b L) as (A & B & C). split; [exact A|]. split; [exact B|]. split; [exact C|].
      destruct (flow_link s a n b L) as (k & Ks & _ & Fk); [right; now left|]. exists a, k. split; [now apply link_nodes in L|auto]. }
    assert (Good : forall s t, ordered h n i o s t -> clear_of (ord h s t) = true /\ order_edge h s t (ord h s t) /\ forall l, order_edge h s t l -> l = ord h s t).
    { intros s t O. rewrite clear_of_iff. cbn [ord fst snd].
      assert (Sx : s <> n /\ s <> i /\ s <> o /\ exists a k, In s (h_nodes h) /\ kind_at h s Out a k /\ flow_kind k).
      { destruct O as [s t A B _|s t A B _|s t A B|s t A B]; [now apply Fs, Ol|now apply Fs, Vl|now apply source_node|apply source_node; now apply ends_last]. }
      assert (Tx : t <> n /\ t <> i /\ t <> o /\ In t (h_nodes h) /\ exists b k, kind_at h t Inc b k /\ flow_kind k).
      { destruct O as [s t A B No|s t A B No|s t A B|s t A B]; [destruct (Fi t B) as (X1 & X2 & X3 & X4)|destruct (Fi t (Ol _ _ B)) as (X1 & X2 & X3 & X4)|destruct (Fl t (Ol _ _ A)) as (X1 & X2 & X3 & X4 & X5)|destruct (Fl t (Vl _ _ A)) as (X1 & X2 & X3 & X4 & X5)]; auto. }
      destruct Sx as (S1 & S2 & S3 & a & k & Is & Ks & Fk), Tx as (T1 & T2 & T3 & It & b & k' & Kt & Fk').
      split; [split; now apply outside|]. eapply order_edge_ord; eassumption. }
    intros l. split.
    - intros [H C].
      assert (X : exists s t, l = ord h s t /\ ordered h n i o s t).
      { destruct H as [E|(s & a & t & c & -> & H)].
        - apply early_iff in E. destruct E as (s & t & -> & H). exists s, t. split; [reflexivity|]. apply clear_of_iff in C. cbn [ord fst snd] in C. destruct C as [_ C].
          assert (No : t <> o) by (intros ->; apply C; right; right; now left). destruct H as [[A B]|[A B]]; [now apply or_enter|now apply or_feed].
        - exists s, t. split; [reflexivity|]. apply clear_of_iff in C. cbn [ord fst snd] in C. destruct C as [C _].
          assert (Ni : s <> i) by (intros ->; apply C; right; now left). destruct H as [(b & It & H)|(p & Lp & It & H)].
          + apply or_leave; [apply order_from_n; eauto|]. apply ends_iff; [exact Ni|]. eauto.
          + apply or_use; [apply value_from_n; eauto|]. apply last_iff; [exact Ni|]. eauto. }
      destruct X as (s & t & -> & O). exists s, t. split; [exact O|]. now apply Good.
    - intros (s & t & O & E). destruct (Good s t O) as (C & _ & U). rewrite (U l E) in *. split; [|exact C]. clear U.
      destruct O as [s t A B No|s t A B No|s t A B|s t A B].
      + left. apply early_iff. exists s, t. auto.
      + left. apply early_iff. exists s, t. auto.
      + right. destruct (source_node s B) as (_ & Ni & _). apply ends_iff in B; [|exact Ni]. destruct B as (a & b & B). apply order_from_n in A. destruct A as (c & A).
        exists s, a, t, c. split; [reflexivity|]. left. eauto.
      + right. destruct (source_node s (ends_last _ _ _ _ _ B)) as (_ & Ni & _). apply last_iff in B; [|exact Ni]. destruct B as (a & B). apply value_from_n in A. destruct A as (p & c & Lp & A).
        exists s, a, t, c. split; [reflexivity|]. right. eauto.
  Qed.

  (** ** The whole *)
  Lemma result_ports : forall l, In l (map via_out (filter (fun l => negb (into_o o ko l)) inner)) \/ early l \/ late l -> out_port h (fst l) /\ in_port h (snd l).
  Proof.
    assert (Ci : forall l, In l inner -> out_port h (fst l) /\ in_port h (snd l)).
    { intros l I. destruct (inner_cases h n i o ki ko src so F _ I) as [_ [[X _]|(p & Lp & X & E)]]; [now apply (wf_links h W)|].
      destruct (src_facts h n i o ki ko src so F p Lp) as (_ & _ & _ & A & _). rewrite E. split; [exact A|]. exact (proj2 (wf_links h W _ X)). }
    intros l [I|[E|(s & a & t & c & -> & H)]].
    - apply in_map_iff in I. destruct I as (l0 & <- & I). apply filter_In in I. destruct I as [I _]. apply Ci in I. unfold InlineProofs.via_out.
      destruct (N.eqb (fst (fst l0)) n && Nat.ltb (snd (fst l0)) ko) eqn:X; [|exact I]. apply andb_true_iff in X. destruct X as [_ X]. apply Nat.ltb_lt in X.
      cbn [fst snd]. split; [|apply I]. now destruct (so_facts h n i o ki ko src so F _ X) as (_ & _ & _ & _ & A & _).
    - destruct (early_facts h n i o ki ko src so F l E) as (s & t & -> & [_ A] & [_ B] & _). auto.
    - assert (A : can_out h s).
      { assert (X : exists b, In ((s, a), (o, b)) inner \/ early ((s, a), (o, b))) by (destruct H as [(b & _ & H)|(p & _ & _ & H)]; eauto).
        destruct X as (b & [I|E]); [now destruct (inner_to_out h n i o ki ko src so F _ I eq_refl)|].
        destruct (early_facts h n i o ki ko src so F _ E) as (s' & t' & E' & A & _). injection E' as -> _ _ _. exact A. }
      assert (B : can_in h t).
      { assert (X : exists p, In ((n, p), (t, c)) (h_links h)) by (destruct H as [(b & H & _)|(p & _ & H & _)]; eauto).
        destruct X as (p & L). apply (bf_flow _ _ _ _ _ _ _ _ F _ L). left. now left. }
      split; [apply A|apply B].
  Qed.

  Lemma not_container : forall r, ~ container (OInput r) /\ ~ container (OOutput r).
  Proof. intros r. split; intros (c & A); inversion A; subst; match goal with X : region _ _ _ |- _ => inversion X end. Qed.

  Lemma links_wf : forall (h1 : hugr op M) L, wf h1 -> (forall l, In l L -> out_port h1 (fst l) /\ in_port h1 (snd l)) -> wf (set_links h1 L).
  Proof. intros h1 L W1 P. destruct W1. constructor; cbn [set_links h_nodes h_root h_entry h_parent h_kids h_links]; assumption. Qed.

  Theorem inline_result : n <> h_entry h -> exists h', inline_dfg h n = Inlined h' [n; i; o] /\ wf h' /\ inlines h n parent i o rest h'.
  Proof.
    intros Ne. destruct (bf_distinct _ _ _ _ _ _ _ _ F) as (D1 & D2 & D3). pose proof (dfg_parent _ _ _ _ _ _ D) as Pn. pose proof (dfg_kids _ _ _ _ _ _ D) as Kn.
    destruct (dfg_boundary env defs h W V n parent i o rest ins outs D Op) as (Oi & Oo & Nb). destruct (dfg_children h W n parent i o rest D) as (Pi & Po & Pr).
    pose proof (dfg_live h W n parent i o rest D) as Ln. destruct (dfg_inner_live h W n parent i o rest D) as (Li & Lo).
    assert (LV : forall r, length (values r) = length r) by (intros r; apply map_length).
    assert (VF : forall r x, In x (values r) -> k_value x = true \/ k_static x = true).
    { intros r x X. unfold values in X. apply in_map_iff in X. destruct X as (t & <- & _). now left. }
    assert (Np : n <> parent) by (intros E; apply (not_self h W n); congruence).
    assert (Nei : i <> h_entry h) by (intros E; pose proof (v_entry _ _ _ V) as X; rewrite <- E, Oi in X; now apply not_container in X).
    assert (Neo : o <> h_entry h) by (intros E; pose proof (v_entry _ _ _ V) as X; rewrite <- E, Oo in X; now apply not_container in X).
    assert (ND : NoDup (i :: o :: rest)) by (rewrite <- Kn; apply (wf_kids_once h W)).
    inversion ND as [|? ? Xi ND1]; subst. inversion ND1 as [|? ? Xo ND2]; subst.
    assert (Nri : ~ In i rest) by (intros X; apply Xi; now right).
    assert (Nrn : ~ In n rest) by (intros X; apply (not_self h W n); auto).
    unfold inline_dfg. rewrite (proj2 (contains_iff h n) Ln). cbn [negb]. rewrite Op. apply N.eqb_neq in Ne. rewrite Ne. apply N.eqb_neq in Ne. rewrite <- Op.
    rewrite (last_other _ _ _ (n_in_ports h n ins outs Op)), (last_other _ _ _ (n_out_ports h n ins outs Op)) by apply VF. rewrite !LV.
    replace (get_parent h n) with (Some parent) by (unfold get_parent; destruct (wf_parent_live h W n parent Pn) as (_ & _ & Nr); apply N.eqb_neq in Nr; rewrite (proj2 (contains_iff h n) Ln), Nr; now rewrite Pn).
    rewrite Kn.
    destruct (move_children h n parent W Pn rest [] h) as (h1 & E1 & Mv).
    { constructor; [exact W|auto 10|intros m; reflexivity|]. intros m. rewrite app_nil_r. destruct (N.eqb_spec m parent) as [->|]; [reflexivity|].
      destruct (N.eqb_spec m n) as [->|]; [|reflexivity]. symmetry. now apply filter_all. }
    { exact ND2. }
    { exact Pr. }
    rewrite E1. cbn [app] in Mv. destruct (mv_same _ _ _ _ _ Mv) as (S1 & S2 & S3 & S4 & S5 & S6 & S7 & S8). pose proof (mv_wf _ _ _ _ _ Mv) as W1.
    rewrite S2, (last_other _ _ _ (i_out_ports env defs h W V n parent i o rest ins outs D Op)), (last_other _ _ _ (o_in_ports env defs h W V n parent i o rest ins outs D Op)) by apply VF.
    rewrite !LV.
    pose proof (facts_transfer h h1 n i o ki ko src so S1 S2 S4 S5 S6 F) as F1.
    destruct (inline_links_spec h1 n i o ki ko src so F1) as (L & Q & E2 & P & HQ).
    { rewrite S5. change (num_ports h n Inc = S ki). rewrite (port_number env defs h V n Inc _ Ln (n_in_ports h n ins outs Op)), app_length, LV. cbn. lia. }
    { rewrite S6. change (num_ports h n Out = S ko). rewrite (port_number env defs h V n Out _ Ln (n_out_ports h n ins outs Op)), app_length, LV. cbn. lia. }
    rewrite E2.
    assert (Ein : InlineProofs.inner h1 n i ki src = inner) by (unfold InlineProofs.inner; now rewrite S4).
    assert (HE : forall l, InlineProofs.early h1 n i ki src l <-> early l).
    { intros l. unfold InlineProofs.early, ord, oo, oi. now rewrite S4, S2. }
    assert (HQ' : forall l, In l Q <-> early l \/ late l).
    { intros l. rewrite HQ, HE. unfold InlineProofs.late. rewrite Ein, S4. unfold ord, oo, oi. rewrite S2.
      split; (intros [X|(s & a & t & c & E & X)]; [now left|right; exists s, a, t, c; split; [exact E|]; destruct X as [(b & A & B)|(p & A & B & C)]; [left; exists b|right; exists p]]);
        (repeat split; try assumption); [destruct B as [B|B]|destruct C as [C|C]|destruct B as [B|B]|destruct C as [C|C]]; first [now left|right; now apply HE]. }
    rewrite Ein in P. clear HQ HE.
    assert (W2 : wf (set_links h1 L)).
    { apply links_wf; [exact W1|]. intros l Il. apply (Permutation_in l P) in Il. apply in_app_iff in Il. rewrite HQ' in Il. apply result_ports in Il.
      unfold out_port, in_port in *. now rewrite S1, S5, S6. }
    set (h2 := set_links h1 L) in *.
    destruct (proj2 (remove_node_iff OModule h2 i)) as (h3 & E3). { cbn. rewrite S1, S8. auto. }
    rewrite E3. pose proof (cull_step h2 h2 h3 [] i W2 (culled_none h2) (fun X => X) E3) as C3.
    destruct (proj2 (remove_node_iff OModule h3 o)) as (h4 & E4).
    { rewrite (cu_nodes _ _ _ C3), (cu_entry _ _ _ C3), filter_In. cbn. rewrite S1, S8. split; [|exact Neo]. split; [exact Lo|]. destruct (N.eqb_spec o i) as [X|_]; [congruence|reflexivity]. }
    rewrite E4. assert (C4 : culled h2 [o; i] h4) by (apply (cull_step h2 h3 h4 [i] o W2 C3); [intros [X|[]]; congruence|exact E4]).
    assert (K4 : h_kids h4 n = []).
    { rewrite (cu_kids _ _ _ C4). destruct (memN n [o; i]); [reflexivity|]. cbn [h2 set_links h_kids]. rewrite (mv_kids _ _ _ _ _ Mv).
      destruct (N.eqb_spec n parent) as [X|_]; [contradiction|]. rewrite N.eqb_refl, Kn. rewrite filter_filter. apply filter_none.
      intros c [<-|[<-|Ic]]; rewrite ?memN_cons, ?N.eqb_refl; cbn [orb negb memN existsb]; rewrite ?orb_true_r; cbn [negb]; rewrite ?andb_false_r; try reflexivity.
      apply memN_iff in Ic. now rewrite Ic. }
    rewrite K4.
    destruct (proj2 (remove_node_iff OModule h4 n)) as (h5 & E5).
    { rewrite (cu_nodes _ _ _ C4), (cu_entry _ _ _ C4), filter_In. cbn. rewrite S1, S8. split; [|exact Ne]. split; [exact Ln|]. destruct (N.eqb_spec n o) as [X|_]; [congruence|]. destruct (N.eqb_spec n i) as [X|_]; [congruence|reflexivity]. }
    rewrite E5. assert (C5 : culled h2 [n; o; i] h5) by (apply (cull_step h2 h4 h5 [o; i] n W2 C4); [intros [X|[X|[]]]; congruence|exact E5]).
    exists h5. split; [reflexivity|].
    assert (Par2 : forall m, h_parent h2 m = if memN m rest then Some parent else h_parent h m) by (intros m; cbn [h2 set_links h_parent]; apply (mv_parent _ _ _ _ _ Mv)).
    assert (NR : forall x, In x [n; o; i] -> x <> h_root h).
    { intros x [<-|[<-|[<-|[]]]]; [apply (wf_parent_live h W n parent Pn)|apply (wf_parent_live h W o n Po)|apply (wf_parent_live h W i n Pi)]. }
    assert (Leaf : forall m p, h_parent h m = Some p -> p <> i /\ p <> o).
    { intros m p E. pose proof (v_tree _ _ _ V m p E) as T. split; intros ->; rewrite ?Oi, ?Oo in T; now apply (not_container) with (1 := ex_intro _ _ T). }
    assert (Npr : ~ In parent [n; o; i]).
    { destruct (Leaf n parent Pn) as [A B]. intros [X|[X|[X|[]]]]; congruence. }
    split.
    - apply (culled_wf h2 h5 [n; o; i] W2 C5); cbn [h2 set_links h_root h_entry]; rewrite ?S7, ?S8.
      + intros X. now apply NR in X.
      + intros [X|[X|[X|[]]]]; congruence.
      + intros m p E Ip. rewrite Par2 in E. destruct (memN m rest) eqn:Em; [injection E as <-; contradiction|].
        destruct Ip as [<-|[<-|[<-|[]]]]; [|now destruct (Leaf m _ E)|now destruct (Leaf m _ E)].
        apply (wf_kids h W) in E. rewrite Kn in E. destruct E as [<-|[<-|E]]; cbn; auto. apply memN_false in Em. contradiction.
    - constructor.
      + intros m. rewrite (cu_nodes _ _ _ C5), filter_In, negb_true_iff, memN_false. cbn [h2 set_links h_nodes]. rewrite S1. cbn [In]. tauto.
      + intros m Im. rewrite (cu_nodes _ _ _ C5), filter_In, negb_true_iff in Im. destruct Im as [_ Im]. rewrite (cu_ops _ _ _ C5), Im, (cu_meta _ _ _ C5), (cu_in _ _ _ C5), (cu_out _ _ _ C5).
        cbn [h2 set_links h_ops h_meta h_in h_out]. now rewrite S2, S3, S5, S6.
      + intros m Im. rewrite (cu_parent _ _ _ C5). assert (Nm : memN m [n; o; i] = false).
        { apply memN_false. intros [<-|[<-|[<-|[]]]]; contradiction. }
        rewrite Nm, Par2. apply memN_iff in Im. rewrite Im. apply memN_false in Npr. now rewrite Npr.
      + intros m Im Nm. rewrite (cu_nodes _ _ _ C5), filter_In, negb_true_iff in Im. destruct Im as [Im Nm']. rewrite (cu_parent _ _ _ C5), Nm', Par2. pose proof Nm as Nm2. apply memN_false in Nm2. rewrite Nm2.
        destruct (h_parent h m) as [p|] eqn:Ep; [|reflexivity]. replace (memN p [n; o; i]) with false; [reflexivity|]. symmetry. apply memN_false.
        destruct (Leaf m p Ep) as [A B]. intros [<-|[X|[X|[]]]]; try congruence. apply (wf_kids h W) in Ep. rewrite Kn in Ep. apply memN_false in Nm'. destruct Ep as [<-|[<-|E]]; [apply Nm'; cbn; auto|apply Nm'; cbn; auto|contradiction].
      + rewrite (cu_kids _ _ _ C5). apply memN_false in Npr. rewrite Npr. cbn [h2 set_links h_kids]. rewrite (mv_kids _ _ _ _ _ Mv), N.eqb_refl, filter_app. f_equal.
        * unfold delN. apply filter_in_ext. intros c Ic. apply (wf_kids h W) in Ic. rewrite !memN_cons. cbn [memN existsb].
          destruct (N.eqb_spec c o) as [->|_]; [congruence|]. destruct (N.eqb_spec c i) as [->|_]; [congruence|]. now rewrite !orb_false_r.
        * apply filter_all. intros c Ic. apply negb_true_iff, memN_false. intros [<-|[<-|[<-|[]]]]; contradiction.
      + intros m Im Nm. rewrite (cu_nodes _ _ _ C5), filter_In, negb_true_iff in Im. destruct Im as [Im Nm']. rewrite (cu_kids _ _ _ C5), Nm'. cbn [h2 set_links h_kids]. rewrite (mv_kids _ _ _ _ _ Mv).
        destruct (N.eqb_spec m parent) as [|_]; [contradiction|]. apply memN_false in Nm'. destruct (N.eqb_spec m n) as [->|Nmn]; [exfalso; apply Nm'; now left|].
        apply filter_all. intros c Ic. apply (wf_kids h W) in Ic. apply negb_true_iff, memN_false. intros [<-|[<-|[<-|[]]]]; congruence.
      + rewrite (cu_root _ _ _ C5). exact S7.
      + rewrite (cu_entry _ _ _ C5). exact S8.
      + exists kept_link, (map (fun l => via_out (via_in l)) (filter kept_link (h_links h))), (filter clear_of Q). split; [exact kept_iff|]. split; [|split].
        * rewrite (cu_links _ _ _ C5). cbn [h2 set_links h_links]. change (fun l => negb (memN (fst (fst l)) [n; o; i] || memN (fst (snd l)) [n; o; i])) with clear_of.
          etransitivity; [apply filter_perm; exact P|]. rewrite filter_app, kept_eq. apply Permutation_refl.
        * assert (X : forall ls, (forall l, In l ls -> In l (h_links h) /\ kept_link l = true) -> Forall2 (fun l l' => snd l' = snd l /\ resolves h n i o (fst l) (fst l')) ls (map (fun l => via_out (via_in l)) ls)).
          { induction ls as [|l ls IH]; intros A; [constructor|]. cbn [map]. constructor; [apply kept_resolves; now apply A; left|]. apply IH. intros x Ix. apply A. now right. }
          apply X. intros l Il. now apply filter_In in Il.
        * intros l. rewrite filter_In, HQ'. apply orders_iff.
  Qed.
End Result.
