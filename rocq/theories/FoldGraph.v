(** What breaking wires does to a HUGR. *)
From Coq Require Import List Bool NArith Arith Lia.
From Verif Require Import TypesModel GraphModel GraphSpec GraphProofs GraphRemove Graphs OpModel DeadModel InlineModel InlineProofs ReplaceModel FlowModel NormModel FoldModel.
Import ListNotations.
Local Notation wf := GraphSpec.wf.

(** A broken wire: its target, the value, and the new nodes. *)
Record cut {E F} := { k_node : N; k_port : nat; k_value : value E F; k_const : N; k_load : N }.

Section Broken.
  Context {E F M : Type}.
  Notation hugr := (hugr op M).
  Notation value := (value E F).
  Notation cut := (@cut E F).
  Variable type_of : value -> ty.
  Variable store : value -> N.
  Variable fresh : hugr -> N.

  Definition made (L : list cut) (x : N) : Prop := exists k, In k L /\ (x = k_const k \/ x = k_load k).
  Definition cut_at (L : list cut) (n : N) (i : nat) : Prop := exists k, In k L /\ k_node k = n /\ k_port k = i.

  Lemma add_inv (h h' : hugr) c p o : add_node_with_parent OpModel.in_count OpModel.out_count h c p o = Some h' ->
    ~ In c (h_nodes h) /\ h_nodes h' = c :: h_nodes h /\ h_root h' = h_root h /\ h_entry h' = h_entry h /\ h_ops h' = upd (h_ops h) c o /\
    h_parent h' = upd (h_parent h) c (Some p) /\ h_kids h' = upd (h_kids h) p (h_kids h p ++ [c]) /\ h_links h' = h_links h.
  Proof.
    unfold add_node_with_parent. destruct (add_node _ _ h c o) as [h1|] eqn:E1; [|discriminate]. apply add_node_inv in E1 as [Hn ->].
    unfold push_child. cbn [h_parent h_nodes h_kids set_ops set_ports set_nodes]. destruct (h_parent h c); [discriminate|]. destruct (climbs _ _ _ _); [discriminate|].
    intros X. injection X as <-. cbn. auto 10.
  Qed.
  Lemma connect_inv (h h' : hugr) s i d j : connect h s i d j = Some h' ->
    h_nodes h' = h_nodes h /\ h_root h' = h_root h /\ h_entry h' = h_entry h /\ h_ops h' = h_ops h /\ h_parent h' = h_parent h /\ h_kids h' = h_kids h /\ h_links h' = h_links h ++ [((s, i), (d, j))].
  Proof. unfold connect. destruct (_ && _); [|discriminate]. intros X. injection X as <-. cbn. auto 10. Qed.
  Lemma disconnect_inv (h h' : hugr) n d i : disconnect h n d i = Some h' ->
    h_nodes h' = h_nodes h /\ h_root h' = h_root h /\ h_entry h' = h_entry h /\ h_ops h' = h_ops h /\ h_parent h' = h_parent h /\ h_kids h' = h_kids h /\ h_links h' = filter (fun l => negb (at_port n d i l)) (h_links h).
  Proof. unfold disconnect. destruct (valid_port h n d i); [|discriminate]. intros X. injection X as <-. cbn. auto 10. Qed.

  Lemma break_inv (h h' : hugr) n ip v : wf h -> break_wire type_of store fresh h (n, ip, v) = Some h' ->
    exists p c l, get_parent h n = Some p /\ ~ In c (h_nodes h) /\ ~ In l (h_nodes h) /\ c <> l /\ wf h' /\
      h_nodes h' = l :: c :: h_nodes h /\ h_root h' = h_root h /\ h_entry h' = h_entry h /\
      h_ops h' = upd (upd (h_ops h) c (OConst (store v) (type_of v) true)) l (OLoadConstant (type_of v)) /\
      h_parent h' = upd (upd (h_parent h) c (Some p)) l (Some p) /\
      (forall x, h_kids h' x = if N.eqb x p then h_kids h p ++ [c; l] else h_kids h x) /\
      h_links h' = filter (fun l => negb (at_port n Inc ip l)) (h_links h ++ [((c, 0), (l, 0))]) ++ [((l, 0), (n, ip))].
  Proof.
    intros Wh. unfold break_wire, opt_bind, add_child. destruct (get_parent h n) as [p|] eqn:Ep; [|discriminate].
    assert (Hp : In p (h_nodes h)). { unfold get_parent in Ep. destruct (_ && _); [|discriminate]. apply (wf_parent_live h Wh n p Ep). }
    destruct (add_node_with_parent _ _ h (fresh h) p _) as [h1|] eqn:E1; [|discriminate]. cbn [option_map].
    pose proof (add_child_wf OModule _ _ h h1 _ p _ Wh Hp E1) as W1. apply add_inv in E1 as (Nc & N1 & R1 & En1 & O1 & P1 & K1 & L1).
    destruct (add_node_with_parent _ _ h1 (fresh h1) p _) as [h2|] eqn:E2; [|discriminate]. cbn [option_map].
    assert (Hp1 : In p (h_nodes h1)) by (rewrite N1; right; exact Hp).
    pose proof (add_child_wf OModule _ _ h1 h2 _ p _ W1 Hp1 E2) as W2. apply add_inv in E2 as (Nl & N2 & R2 & En2 & O2 & P2 & K2 & L2).
    destruct (connect h2 _ 0 _ 0) as [h3|] eqn:E3; [|discriminate]. pose proof (connect_wf h2 h3 _ _ _ _ W2 E3) as W3. apply connect_inv in E3 as (N3 & R3 & En3 & O3 & P3 & K3 & L3).
    destruct (disconnect h3 n Inc ip) as [h4|] eqn:E4; [|discriminate]. pose proof (disconnect_wf h3 h4 _ _ _ W3 E4) as W4. apply disconnect_inv in E4 as (N4 & R4 & En4 & O4 & P4 & K4 & L4).
    intros E5. pose proof (connect_wf h4 h' _ _ _ _ W4 E5) as W5. apply connect_inv in E5 as (N5 & R5 & En5 & O5 & P5 & K5 & L5).
    exists p, (fresh h), (fresh h1). split; [reflexivity|]. split; [exact Nc|].
    rewrite N1 in Nl. split; [intros H; apply Nl; right; exact H|]. split; [intros H; apply Nl; left; exact H|]. split; [exact W5|].
    split; [congruence|]. split; [congruence|]. split; [congruence|]. split; [congruence|]. split; [congruence|]. split; [|congruence].
    intros x. rewrite K5, K4, K3, K2, K1. unfold upd. rewrite N.eqb_refl. destruct (N.eqb x p); [rewrite <- app_assoc; reflexivity|reflexivity].
  Qed.

  Record broken (h : hugr) (L : list cut) (h' : hugr) : Prop := {
    b_wf : wf h';
    b_nodes : forall x, In x (h_nodes h') <-> In x (h_nodes h) \/ made L x;
    b_root : h_root h' = h_root h;
    b_entry : h_entry h' = h_entry h;
    b_ops : forall x, ~ made L x -> h_ops h' x = h_ops h x;
    b_const : forall k, In k L -> h_ops h' (k_const k) = OConst (store (k_value k)) (type_of (k_value k)) true;
    b_load : forall k, In k L -> h_ops h' (k_load k) = OLoadConstant (type_of (k_value k));
    b_parent : forall x, ~ made L x -> h_parent h' x = h_parent h x;
    b_place : forall k, In k L -> exists p, h_parent h (k_node k) = Some p /\ h_parent h' (k_const k) = Some p /\ h_parent h' (k_load k) = Some p;
    b_kids : forall p, exists new, h_kids h' p = h_kids h p ++ new /\ forall x, In x new -> made L x;
    b_same : forall n i, ~ made L n -> ~ cut_at L n i -> linked_outputs h' n i = linked_outputs h n i;
    b_cut : forall n i, cut_at L n i -> exists k, In k L /\ k_node k = n /\ k_port k = i /\ linked_outputs h' n i = [(k_load k, 0)];
    b_fed : forall k, In k L -> linked_outputs h' (k_load k) 0 = [(k_const k, 0)];
    b_links : forall l, In l (h_links h') -> In l (h_links h) \/ exists k, In k L /\ (l = ((k_const k, 0), (k_load k, 0)) \/ l = ((k_load k, 0), (k_node k, k_port k)));
    b_left : forall l, In l (h_links h) -> ~ cut_at L (fst (snd l)) (snd (snd l)) -> In l (h_links h');
    b_old : forall k, In k L -> In (k_node k) (h_nodes h);
    b_new : forall x, made L x -> ~ In x (h_nodes h) }.

  Lemma made_nil x : ~ made [] x.
  Proof. intros (k & [] & _). Qed.
  Lemma broken_nil h : wf h -> broken h [] h.
  Proof.
    intros Wh. constructor; auto; try (intros k []; fail).
    - intros x. split; [auto|]. intros [H|H]; [exact H|destruct (made_nil _ H)].
    - intros p. exists []. rewrite app_nil_r. split; [reflexivity|intros x []].
    - intros n i (k & [] & _).
    - intros x H. destruct (made_nil _ H).
  Qed.

  Lemma made_snoc L k x : made (L ++ [k]) x <-> made L x \/ x = k_const k \/ x = k_load k.
  Proof.
    split.
    - intros (j & Hj & Hx). apply in_app_or in Hj as [Hj|[<-|[]]]; [left; exists j; auto|right; exact Hx].
    - intros [(j & Hj & Hx)|H]; [exists j; split; [apply in_or_app; auto|exact Hx]|exists k; split; [apply in_or_app; right; left; reflexivity|exact H]].
  Qed.
  Lemma cut_snoc L k n i : cut_at (L ++ [k]) n i <-> cut_at L n i \/ (k_node k = n /\ k_port k = i).
  Proof.
    split.
    - intros (j & Hj & Hx). apply in_app_or in Hj as [Hj|[<-|[]]]; [left; exists j; auto|right; exact Hx].
    - intros [(j & Hj & Hx)|H]; [exists j; split; [apply in_or_app; auto|exact Hx]|exists k; split; [apply in_or_app; right; left; reflexivity|exact H]].
  Qed.

  Definition wire_of (k : cut) : N * nat * value := (k_node k, k_port k, k_value k).

  Lemma links_live (h : hugr) a i b j : wf h -> In ((a, i), (b, j)) (h_links h) -> In a (h_nodes h) /\ In b (h_nodes h).
  Proof. intros Wh H. destruct (wf_links _ Wh _ H) as [[H1 _] [H2 _]]. auto. Qed.
  Lemma in_outputs (h : hugr) n i m p : In (m, p) (linked_outputs h n i) <-> In ((m, p), (n, i)) (h_links h).
  Proof.
    unfold linked_outputs. rewrite in_map_iff. split.
    - intros ([e1 e2] & <- & H). apply filter_In in H as [H He]. apply ep_eqb_iff in He. cbn in *. subst e2. exact H.
    - intros H. exists ((m, p), (n, i)). split; [reflexivity|]. apply filter_In. split; [exact H|]. apply ep_eqb_iff. reflexivity.
  Qed.

  Lemma outputs_break (h : hugr) c l n ip x j : wf h -> ~ In l (h_nodes h) -> n <> l ->
    map fst (filter (fun y => ep_eqb (snd y) (x, j)) (filter (fun l => negb (at_port n Inc ip l)) (h_links h ++ [((c, 0), (l, 0))]) ++ [((l, 0), (n, ip))])) =
    if ep_eqb (n, ip) (x, j) then [(l, 0)] else if ep_eqb (l, 0) (x, j) then linked_outputs h x j ++ [(c, 0)] else linked_outputs h x j.
  Proof.
    intros Wh Nl Hne.
    assert (Hat : at_port n Inc ip ((c, 0), (l, 0)) = false) by (unfold at_port; cbn [snd]; apply not_true_is_false; rewrite ep_eqb_iff; congruence).
    rewrite !filter_app, map_app, filter_filter. cbn [filter]. rewrite Hat. cbn [negb filter snd]. unfold linked_outputs.
    destruct (ep_eqb (n, ip) (x, j)) eqn:Ea.
    - apply ep_eqb_iff in Ea. injection Ea as <- <-. replace (ep_eqb (l, 0) (n, ip)) with false by (symmetry; apply not_true_is_false; rewrite ep_eqb_iff; congruence).
      rewrite app_nil_r. rewrite filter_none; [reflexivity|]. intros [e1 e2] _. unfold at_port. cbn [snd]. destruct (ep_eqb e2 (n, ip)); reflexivity.
    - assert (Hf : filter (fun y : link => negb (at_port n Inc ip y) && ep_eqb (snd y) (x, j)) (h_links h) = filter (fun y => ep_eqb (snd y) (x, j)) (h_links h)).
      { apply filter_ext_in. intros [e1 e2] _. unfold at_port. cbn [snd]. destruct (ep_eqb e2 (x, j)) eqn:Eb; [|apply andb_false_r]. apply ep_eqb_iff in Eb. subst e2.
        destruct (ep_eqb (x, j) (n, ip)) eqn:Ec; [|reflexivity]. apply ep_eqb_iff in Ec. injection Ec as -> ->. rewrite (proj2 (ep_eqb_iff _ _) eq_refl) in Ea. discriminate. }
      rewrite Hf, !map_app. destruct (ep_eqb (l, 0) (x, j)); cbn [map fst]; rewrite !app_nil_r; reflexivity.
  Qed.

  Lemma broken_step h L h1 h2 n ip v : broken h L h1 -> In n (h_nodes h) -> break_wire type_of store fresh h1 (n, ip, v) = Some h2 ->
    exists k, wire_of k = (n, ip, v) /\ broken h (L ++ [k]) h2.
  Proof.
    intros B Hn Hb. pose proof (b_wf _ _ _ B) as W1. destruct (break_inv h1 h2 n ip v W1 Hb) as (p & c & l & Hp & Nc & Nl & Hcl & W2 & HN & HR & HE & HO & HP & HK & HL).
    exists {| k_node := n; k_port := ip; k_value := v; k_const := c; k_load := l |}. split; [reflexivity|]. set (k0 := {| k_node := n |}) in *.
    assert (Mn : ~ made L n) by (intros H; apply (b_new _ _ _ B) in H; contradiction).
    assert (Hn1 : In n (h_nodes h1)) by (apply (b_nodes _ _ _ B); auto).
    assert (Hnl : n <> l) by (intros ->; contradiction).
    assert (Mc : ~ made L c) by (intros H; apply Nc, (b_nodes _ _ _ B); auto).
    assert (Ml : ~ made L l) by (intros H; apply Nl, (b_nodes _ _ _ B); auto).
    assert (Hc0 : ~ In c (h_nodes h)) by (intros H; apply Nc, (b_nodes _ _ _ B); auto).
    assert (Hl0 : ~ In l (h_nodes h)) by (intros H; apply Nl, (b_nodes _ _ _ B); auto).
    assert (Hout : forall x j, linked_outputs h2 x j = if ep_eqb (n, ip) (x, j) then [(l, 0)] else if ep_eqb (l, 0) (x, j) then linked_outputs h1 x j ++ [(c, 0)] else linked_outputs h1 x j).
    { intros x j. unfold linked_outputs at 1. rewrite HL. apply outputs_break; assumption. }
    assert (Hlnone : forall j, linked_outputs h1 l j = []).
    { intros j. destruct (linked_outputs h1 l j) as [|[a i] rest] eqn:El; [reflexivity|exfalso]. apply Nl.
      assert (Hi : In (a, i) (linked_outputs h1 l j)) by (rewrite El; left; reflexivity). apply in_outputs in Hi. apply (links_live h1 _ _ _ _ W1 Hi). }
    assert (Hpar : h_parent h n = Some p).
    { unfold get_parent in Hp. destruct (_ && _); [|discriminate]. rewrite (b_parent _ _ _ B n Mn) in Hp. exact Hp. }
    constructor.
    - exact W2.
    - intros x. rewrite HN, made_snoc. cbn [In k_const k_load k0]. rewrite (b_nodes _ _ _ B). intuition congruence.
    - rewrite HR. apply (b_root _ _ _ B).
    - rewrite HE. apply (b_entry _ _ _ B).
    - intros x Hx. rewrite made_snoc in Hx. cbn in Hx. rewrite HO, !upd_other by tauto. apply (b_ops _ _ _ B). tauto.
    - intros k Hk. apply in_app_or in Hk as [Hk|[<-|[]]].
      + assert (Hm : made L (k_const k)) by (exists k; auto). rewrite HO, !upd_other by (intros Heq; rewrite Heq in Hm; contradiction). apply (b_const _ _ _ B k Hk).
      + cbn. rewrite HO, upd_other, upd_same by exact Hcl. reflexivity.
    - intros k Hk. apply in_app_or in Hk as [Hk|[<-|[]]].
      + assert (Hm : made L (k_load k)) by (exists k; auto). rewrite HO, !upd_other by (intros Heq; rewrite Heq in Hm; contradiction). apply (b_load _ _ _ B k Hk).
      + cbn. rewrite HO, upd_same. reflexivity.
    - intros x Hx. rewrite made_snoc in Hx. cbn in Hx. rewrite HP, !upd_other by tauto. apply (b_parent _ _ _ B). tauto.
    - intros k Hk. apply in_app_or in Hk as [Hk|[<-|[]]].
      + destruct (b_place _ _ _ B k Hk) as (q & H1 & H2 & H3). exists q. split; [exact H1|].
        assert (Hm : made L (k_const k)) by (exists k; auto). assert (Hm' : made L (k_load k)) by (exists k; auto).
        rewrite HP, !upd_other by (intros Heq; (rewrite Heq in Hm; contradiction) || (rewrite Heq in Hm'; contradiction)). auto.
      + exists p. cbn. split; [exact Hpar|]. rewrite HP. rewrite upd_other by exact Hcl. rewrite !upd_same. auto.
    - intros q. destruct (b_kids _ _ _ B q) as (new & Hq & Hnew). rewrite HK. destruct (N.eqb_spec q p) as [->|Hne].
      + exists (new ++ [c; l]). rewrite Hq, app_assoc. split; [reflexivity|]. intros x Hx. apply made_snoc. cbn. apply in_app_or in Hx as [Hx|[<-|[<-|[]]]]; auto.
      + exists new. split; [exact Hq|]. intros x Hx. apply made_snoc. auto.
    - intros x j Hx Hj. rewrite made_snoc in Hx. rewrite cut_snoc in Hj. cbn in Hx, Hj. rewrite Hout.
      destruct (ep_eqb (n, ip) (x, j)) eqn:Ea; [exfalso; apply ep_eqb_iff in Ea; injection Ea as -> ->; tauto|].
      destruct (ep_eqb (l, 0) (x, j)) eqn:Eb; [exfalso; apply ep_eqb_iff in Eb; injection Eb as -> _; tauto|]. apply (b_same _ _ _ B); tauto.
    - intros x j Hj. rewrite Hout. destruct (ep_eqb (n, ip) (x, j)) eqn:Ea.
      + apply ep_eqb_iff in Ea. injection Ea as <- <-. exists k0. split; [apply in_or_app; right; left; reflexivity|]. auto.
      + rewrite cut_snoc in Hj. cbn in Hj. destruct Hj as [Hj|[<- <-]]; [|rewrite (proj2 (ep_eqb_iff _ _) eq_refl) in Ea; discriminate].
        assert (Hx : In x (h_nodes h)) by (destruct Hj as (k & Hk & <- & _); apply (b_old _ _ _ B k Hk)).
        destruct (ep_eqb (l, 0) (x, j)) eqn:Eb; [exfalso; apply ep_eqb_iff in Eb; injection Eb as <- _; contradiction|].
        destruct (b_cut _ _ _ B x j Hj) as (k & Hk & H). exists k. split; [apply in_or_app; left; exact Hk|exact H].
    - intros k Hk. apply in_app_or in Hk as [Hk|[<-|[]]]; rewrite Hout.
      + assert (Hm : made L (k_load k)) by (exists k; auto).
        destruct (ep_eqb (n, ip) (k_load k, 0)) eqn:Ea; [exfalso; apply ep_eqb_iff in Ea; injection Ea as Ea _; rewrite <- Ea in Hm; contradiction|].
        destruct (ep_eqb (l, 0) (k_load k, 0)) eqn:Eb; [exfalso; apply ep_eqb_iff in Eb; injection Eb as Eb; rewrite <- Eb in Hm; contradiction|].
        apply (b_fed _ _ _ B k Hk).
      + cbn [k_load k_const k0]. destruct (ep_eqb (n, ip) (l, 0)) eqn:Ea; [exfalso; apply ep_eqb_iff in Ea; injection Ea as Ea _; contradiction|].
        rewrite (proj2 (ep_eqb_iff (l, 0) (l, 0)) eq_refl), Hlnone. reflexivity.
    - intros e He. rewrite HL in He. apply in_app_or in He as [He|[<-|[]]].
      + apply filter_In in He as [He _]. apply in_app_or in He as [He|[<-|[]]].
        * destruct (b_links _ _ _ B e He) as [H|(k & Hk & H)]; [auto|]. right. exists k. split; [apply in_or_app; auto|exact H].
        * right. exists k0. split; [apply in_or_app; right; left; reflexivity|]. auto.
      + right. exists k0. split; [apply in_or_app; right; left; reflexivity|]. auto.
    - intros e He Hc. rewrite cut_snoc in Hc. cbn in Hc. rewrite HL. apply in_or_app. left. apply filter_In. split; [apply in_or_app; left; apply (b_left _ _ _ B); tauto|].
      apply negb_true_iff. apply not_true_is_false. unfold at_port. rewrite ep_eqb_iff. intros Heq. apply Hc. right. rewrite Heq. auto.
    - intros k Hk. apply in_app_or in Hk as [Hk|[<-|[]]]; [apply (b_old _ _ _ B k Hk)|exact Hn].
    - intros x Hx. apply made_snoc in Hx. cbn in Hx. destruct Hx as [Hx|[->| ->]]; [apply (b_new _ _ _ B x Hx)|exact Hc0|exact Hl0].
  Qed.

  Lemma broken_each h : forall ws L h1 h2, broken h L h1 -> (forall n ip v, In (n, ip, v) ws -> In n (h_nodes h)) -> each (break_wire type_of store fresh) ws h1 = Some h2 ->
    exists L', map wire_of L' = ws /\ broken h (L ++ L') h2.
  Proof.
    induction ws as [|[[n ip] v] ws IH]; intros L h1 h2 B Hw H; cbn [each] in H.
    - injection H as <-. exists []. rewrite app_nil_r. auto.
    - destruct (break_wire type_of store fresh h1 (n, ip, v)) as [h3|] eqn:Eb; [|discriminate].
      destruct (broken_step h L h1 h3 n ip v B (Hw n ip v (or_introl eq_refl)) Eb) as (k & Hk & B3).
      destruct (IH (L ++ [k]) h3 h2 B3) as (L' & HL & B'); [intros a b c Hi; apply (Hw a b c); right; exact Hi|exact H|].
      exists (k :: L'). rewrite <- app_assoc in B'. split; [cbn; rewrite Hk, HL; reflexivity|exact B'].
  Qed.
  Lemma broken_all h ws h' : wf h -> (forall n ip v, In (n, ip, v) ws -> In n (h_nodes h)) -> each (break_wire type_of store fresh) ws h = Some h' ->
    exists L, map wire_of L = ws /\ broken h L h'.
  Proof. intros Wh Hw H. apply (broken_each h ws [] h h' (broken_nil h Wh) Hw H). Qed.
End Broken.
