(** The graph after blocks were moved into a nested control-flow graph. *)
From Coq Require Import List Bool NArith Arith Lia Permutation.
From Verif Require Import TypesModel GraphModel GraphSpec GraphProofs GraphRemove OpModel OpSpec DeadModel InlineModel ReplaceModel ValidModel ValidSpec OutlineModel OutlineSpec OutlineProofs InlineProofs OutlineEffect.
Import ListNotations.
Local Notation wf := GraphSpec.wf.

(** ** Lists of links *)
Section Links.
  Variables (is_in : link -> bool) (b q : endpoint) (x : endpoint).
  Definition turn (l : link) : link := if is_in l then (fst l, b) else l.
  Lemma turn_perm (ls : list link) : Permutation (filter (fun l => negb (is_in l)) ls ++ map (fun pe => (pe, b)) (map fst (filter is_in ls))) (map turn ls).
  Proof.
    induction ls as [|l ls IH]; [reflexivity|]. cbn [filter map]. unfold turn at 1. destruct (is_in l); cbn [negb map].
    - etransitivity; [symmetry; apply Permutation_middle|]. now constructor.
    - cbn [app]. now constructor.
  Qed.
  Definition turn2 (l : link) : link := if is_in l then (fst l, b) else if ep_eqb (fst l) x then (fst l, q) else l.
  Lemma turn2_perm (ls : list link) : (forall l, In l ls -> ep_eqb (fst l) x = true -> is_in l = false) ->
    Permutation (filter (fun l : link => negb (ep_eqb (fst l) x)) (map turn ls) ++ map (fun l : link => (fst l, q)) (filter (fun l : link => ep_eqb (fst l) x) ls)) (map turn2 ls).
  Proof.
    induction ls as [|l ls IH]; intros H; [reflexivity|]. cbn [map filter]. assert (Ef : fst (turn l) = fst l) by (unfold turn; destruct (is_in l); reflexivity). rewrite Ef. unfold turn2 at 1. destruct (ep_eqb (fst l) x) eqn:E; cbn [negb map].
    - rewrite (H l (or_introl eq_refl) E). etransitivity; [symmetry; apply Permutation_middle|]. constructor. apply IH. intros y Hy. apply H. now right.
    - replace (if is_in l then (fst l, b) else l) with (turn l) by reflexivity. cbn [app]. constructor. apply IH. intros y Hy. apply H. now right.
  Qed.
  Lemma sources_nodup : forall (ls : list link), (forall l, In l ls -> length (filter (fun m : link => ep_eqb (fst m) (fst l)) ls) <= 1) -> NoDup (map fst ls).
  Proof.
    induction ls as [|l ls IH]; intros H; [constructor|]. cbn [map]. constructor.
    - intros A. apply in_map_iff in A as (m & E & A). specialize (H l (or_introl eq_refl)). cbn [filter] in H. rewrite (proj2 (ep_eqb_iff (fst l) (fst l)) eq_refl) in H. cbn [length] in H.
      assert (B : In m (filter (fun m : link => ep_eqb (fst m) (fst l)) ls)) by (apply filter_In; split; [exact A|now apply ep_eqb_iff]). destruct (filter _ ls); [destruct B|cbn in H; lia].
    - apply IH. intros m Hm. specialize (H m (or_intror Hm)). cbn [filter] in H. destruct (ep_eqb (fst l) (fst m)); cbn in H; lia.
  Qed.
  Lemma filter_shorter {A} (f g : A -> bool) l : length (filter f (filter g l)) <= length (filter f l).
  Proof. induction l as [|y l IH]; [reflexivity|]. cbn. destruct (g y); cbn; destruct (f y); cbn; lia. Qed.
  Lemma filter_apart {A} (f g : A -> bool) l : (forall y, f y = true -> g y = false) -> filter f (filter (fun y => negb (g y)) l) = filter f l.
  Proof. intros H. induction l as [|y l IH]; [reflexivity|]. cbn. pose proof (H y) as Hy. destruct (g y) eqn:G; cbn [negb].
    - destruct (f y); [discriminate (Hy eq_refl)|exact IH].
    - cbn [filter]. destruct (f y); [now rewrite IH|exact IH].
  Qed.
  Lemma filter_none {A} (f : A -> bool) l : (forall y, In y l -> f y = false) -> filter f l = [].
  Proof. induction l as [|y l IH]; intros H; [reflexivity|]. cbn. rewrite (H y (or_introl eq_refl)). apply IH. intros z Hz. apply H. now right. Qed.
  Lemma filter_all {A} (f : A -> bool) l : (forall y, In y l -> f y = true) -> filter f l = l.
  Proof. induction l as [|y l IH]; intros H; [reflexivity|]. cbn. rewrite (H y (or_introl eq_refl)). f_equal. apply IH. intros z Hz. apply H. now right. Qed.
End Links.

Section Main.
  Context {M : Type}.
  Notation hugr := (hugr op M).
  Variable f : fresh.

  (** ** The new block *)
  Record with_block (h : hugr) (p : N) (ins outs : row) (h1 : hugr) : Prop := {
    wb_nodes : forall y, In y (h_nodes h1) <-> In y (fresh_nodes f) \/ In y (h_nodes h);
    wb_root : h_root h1 = h_root h;
    wb_entry : h_entry h1 = h_entry h;
    wb_links : h_links h1 = h_links h ++ inner_links f ins outs;
    wb_old : forall y, ~ In y (fresh_nodes f) -> h_ops h1 y = h_ops h y /\ h_in h1 y = h_in h y /\ h_out h1 y = h_out h y /\ h_parent h1 y = h_parent h y /\ (y <> p -> h_kids h1 y = h_kids h y);
    wb_new : h_ops h1 (f_block f) = OBlock ins outs [[]] /\ h_ops h1 (f_in f) = OInput ins /\ h_ops h1 (f_out f) = OOutput (unit_sum :: outs) /\
             h_ops h1 (f_cfg f) = OCfg (ins, outs) /\ h_ops h1 (f_exit f) = OExit outs /\ h_ops h1 (f_const f) = OConst 0 unit_sum true /\ h_ops h1 (f_load f) = OLoadConstant unit_sum;
    wb_placed : h_parent h1 (f_block f) = Some p /\ h_parent h1 (f_exit f) = Some (f_cfg f) /\
                forall y, In y [f_in f; f_out f; f_cfg f; f_const f; f_load f] -> h_parent h1 y = Some (f_block f);
    wb_kids_p : h_kids h1 p = h_kids h p ++ [f_block f];
    wb_kids_block : h_kids h1 (f_block f) = [f_in f; f_out f; f_cfg f; f_const f; f_load f];
    wb_kids_cfg : h_kids h1 (f_cfg f) = [f_exit f]
  }.
  Lemma grew (h h1 : hugr) x p o : h1 = sprout h x p o -> h_nodes h1 = x :: h_nodes h /\ h_root h1 = h_root h /\ h_entry h1 = h_entry h /\
    (forall y, h_ops h1 y = upd (h_ops h) x o y) /\ (forall y, h_in h1 y = upd (h_in h) x (OpModel.in_count o) y) /\ (forall y, h_out h1 y = upd (h_out h) x (OpModel.out_count o) y) /\
    (forall y, h_parent h1 y = upd (h_parent h) x (Some p) y) /\ (forall y, h_kids h1 y = upd (h_kids h) p (h_kids h p ++ [x]) y).
  Proof. intros ->. repeat split. Qed.
  Lemma blocked_block (h : hugr) p ins outs : wf h -> In p (h_nodes h) -> NoDup (fresh_nodes f) -> (forall y, In y (fresh_nodes f) -> ~ In y (h_nodes h)) -> with_block h p ins outs (blocked f h p ins outs).
  Proof.
    intros W Hp Nd Fr. assert (K0 : forall y, In y (fresh_nodes f) -> h_kids h y = []).
    { intros y Hy. destruct (h_kids h y) as [|c l] eqn:E; [reflexivity|]. exfalso. assert (Hc : In c (h_kids h y)) by (rewrite E; now left). apply (wf_kids h W) in Hc. apply (wf_parent_live h W) in Hc. exact (Fr y Hy (proj1 (proj2 Hc))). }
    assert (Np : ~ In p (fresh_nodes f)) by (intros A; exact (Fr p A Hp)). pose proof (K0 (f_block f)) as Kb. pose proof (K0 (f_cfg f)) as Kc.
    assert (Kb2 : h_kids h (f_block f) = []) by (apply Kb; now left). assert (Kc2 : h_kids h (f_cfg f) = []) by (apply Kc; cbn; tauto). clear Kb Kc K0 Fr.
    unfold fresh_nodes in *. cbn [In] in Np.
    apply NoDup_cons_iff in Nd as [D1 Nd]. apply NoDup_cons_iff in Nd as [D2 Nd]. apply NoDup_cons_iff in Nd as [D3 Nd]. apply NoDup_cons_iff in Nd as [D4 Nd]. apply NoDup_cons_iff in Nd as [D5 Nd]. apply NoDup_cons_iff in Nd as [D6 _]. cbn [In] in D1, D2, D3, D4, D5, D6.
    repeat match goal with H : ~ (_ \/ _) |- _ => apply Decidable.not_or in H; destruct H end. unfold blocked.
    remember (sprout h (f_block f) p (OBlock ins outs [[]])) as h1 eqn:E1. apply grew in E1. remember (sprout h1 (f_in f) (f_block f) (OInput ins)) as h2 eqn:E2. apply grew in E2. remember (sprout h2 (f_out f) (f_block f) (OOutput (unit_sum :: outs))) as h3 eqn:E3. apply grew in E3.
    remember (sprout h3 (f_cfg f) (f_block f) (OCfg (ins, outs))) as h4 eqn:E4. apply grew in E4. remember (sprout h4 (f_exit f) (f_cfg f) (OExit outs)) as h5 eqn:E5. apply grew in E5. remember (sprout h5 (f_const f) (f_block f) (OConst 0 unit_sum true)) as h6 eqn:E6. apply grew in E6.
    remember (sprout h6 (f_load f) (f_block f) (OLoadConstant unit_sum)) as h7 eqn:E7. apply grew in E7.
    destruct E1 as (N1 & R1 & T1 & O1 & I1 & U1 & P1 & K1), E2 as (N2 & R2 & T2 & O2 & I2 & U2 & P2 & K2), E3 as (N3 & R3 & T3 & O3 & I3 & U3 & P3 & K3), E4 as (N4 & R4 & T4 & O4 & I4 & U4 & P4 & K4), E5 as (N5 & R5 & T5 & O5 & I5 & U5 & P5 & K5), E6 as (N6 & R6 & T6 & O6 & I6 & U6 & P6 & K6), E7 as (N7 & R7 & T7 & O7 & I7 & U7 & P7 & K7).
    Ltac chase := repeat match goal with
      | |- context [upd _ ?a _ ?a] => rewrite upd_same
      | |- context [upd _ ?a _ ?c] => rewrite (upd_other _ _ a _ c) by congruence
      | H : forall y, h_ops ?g y = _ |- context [h_ops ?g _] => rewrite H | H : forall y, h_in ?g y = _ |- context [h_in ?g _] => rewrite H | H : forall y, h_out ?g y = _ |- context [h_out ?g _] => rewrite H
      | H : forall y, h_parent ?g y = _ |- context [h_parent ?g _] => rewrite H | H : forall y, h_kids ?g y = _ |- context [h_kids ?g _] => rewrite H end.
    constructor; cbn [h_nodes h_root h_entry h_links h_ops h_in h_out h_parent h_kids set_links].
    - intros y. rewrite N7, N6, N5, N4, N3, N2, N1. cbn [In fresh_nodes]. tauto.
    - congruence.
    - congruence.
    - reflexivity.
    - intros y Hy. unfold fresh_nodes in Hy. cbn [In] in Hy. repeat match goal with H : ~ (_ \/ _) |- _ => apply Decidable.not_or in H; destruct H end. split; [chase; reflexivity|]. split; [chase; reflexivity|]. split; [chase; reflexivity|]. split; [chase; reflexivity|]. intros Hyp. chase. reflexivity.
    - repeat split; chase; reflexivity.
    - split; [chase; reflexivity|]. split; [chase; reflexivity|]. intros y [Y|[Y|[Y|[Y|[Y|[]]]]]]; rewrite <- Y; chase; reflexivity.
    - chase. reflexivity.
    - chase. rewrite Kb2. reflexivity.
    - chase. rewrite Kc2. reflexivity.
  Qed.

  (** ** Steps that move one node *)
  Lemma sibling_does after (h h' : hugr) n t q c : wf h -> h_parent h n = Some q -> h_parent h t = Some c -> move_sibling after h n t = Some h' ->
    n <> h_entry h /\ wf h' /\ rest_same h h' /\ (forall y, h_parent h' y = upd (h_parent h) n (Some c) y) /\ (forall y, h_kids h' y = upd (fun y => delN n (h_kids h y)) c (insert_at after n t (delN n (h_kids h c))) y).
  Proof.
    intros W Pn Pt E. pose proof (move_sibling_wf OModule OpModel.in_count OpModel.out_count after h h' n t W E) as W'. apply move_sibling_inv in E as (r & A1 & A2 & A3 & A4 & A5 & A6 & A7 & A8 & A9); [|exact W]. rewrite Pt in A6. injection A6 as <-.
    split; [exact A2|]. split; [exact W'|]. rewrite A9. split; [pose proof (detach_rest h n); unfold rest_same; cbn; tauto|]. split; [intros y; apply upd_detached|]. intros y. cbn. rewrite (detach_kids h W). unfold upd. destruct (N.eqb y c); [reflexivity|]. apply (detach_kids h W).
  Qed.

  Variable env : N -> N -> option typedef.
  Variable defs : N -> N -> opsig.

  (** Every branch of a block has one target. *)
  Lemma one_target (h : hugr) (l m : link) e ins oo rows : wf h -> valid env defs h -> h_ops h e = OBlock ins oo rows -> In l (h_links h) -> snd l = (e, 0) -> length (out_links h (fst l)) = 1 /\ (In m (h_links h) -> fst m = fst l -> m = l).
  Proof.
    intros W V O Hl El. destruct l as [[s i] d]. cbn [fst snd] in *. subst d. destruct (v_links _ _ _ V s i e 0 Hl) as (k & A & B & _). destruct B as (ks & B1 & B2). rewrite O in B1. inversion B1; subst ks. cbn in B2. assert (k = EControl) by congruence. subst k.
    destruct (wf_links h W _ Hl) as [[Ls _] _]. pose proof (v_outputs _ _ _ V s i EControl Ls A Logic.I) as One. split; [exact One|]. intros Hm Em.
    assert (In1 : In ((s, i), (e, 0)) (out_links h (s, i))) by (apply filter_In; split; [exact Hl|now apply ep_eqb_iff]). assert (In2 : In m (out_links h (s, i))) by (apply filter_In; split; [exact Hm|apply ep_eqb_iff; exact Em]).
    destruct (out_links h (s, i)) as [|a [|? ?]]; try discriminate. destruct In1 as [In1|[]], In2 as [In2|[]]. exact (eq_trans (eq_sym In2) In1).
  Qed.

  Definition goes_in (blocks : list N) (e : N) (l : link) : bool := ep_eqb (snd l) (e, 0) && negb (memN (fst (fst l)) blocks).
  Lemma entries_of (h : hugr) blocks e : filter (fun pe => negb (memN (fst pe) blocks)) (linked_outputs h e 0) = map fst (filter (goes_in blocks e) (h_links h)).
  Proof.
    unfold linked_outputs. induction (h_links h) as [|l ls IH]; [reflexivity|]. cbn [filter]. unfold goes_in at 1. destruct (ep_eqb (snd l) (e, 0)); cbn [map filter andb]; [|exact IH]. destruct (memN (fst (fst l)) blocks); cbn [negb map]; [exact IH|exact (f_equal (cons (fst l)) IH)].
  Qed.

  Lemma inner_fresh ins outs (l : link) : In l (inner_links f ins outs) -> In (fst (fst l)) (fresh_nodes f) /\ In (fst (snd l)) (fresh_nodes f).
  Proof.
    unfold inner_links, fresh_nodes. rewrite !in_app_iff, !in_map_iff. intros [(k & <- & _)|[[<-|[<-|[]]]|(k & <- & _)]]; cbn; tauto.
  Qed.

  (** ** The whole *)
  Lemma move_blocks_moves (h h' : hugr) blocks p e x o ins oo rows outs : wf h -> valid env defs h -> NoDup blocks -> (forall n, In n blocks -> In n (h_nodes h)) -> movable h blocks p e x o ->
    h_ops h e = OBlock ins oo rows -> move_blocks f h blocks e x o p ins outs = Some h' -> e <> h_entry h /\ wf h' /\ outlined_as f h blocks p e x o ins outs h'.
  Proof.
    intros W V Nd L Mv Oe. pose proof Mv as [[_ Par] _ Me (i0 & j0 & bef & aft & Lk0 & Lv0 & _ & _)]. assert (He : In e blocks) by (apply (proj2 (Me e)); reflexivity). assert (Hx : In x blocks) by exact (proj1 Lv0). assert (Pe : h_parent h e = Some p) by (apply Par, He).
    assert (Hp : In p (h_nodes h)) by (apply (wf_parent_live h W) in Pe; tauto). unfold move_blocks. destruct (h_kids h p) as [|first kids] eqn:Ek; [discriminate|].
    destruct (add_block f h p ins outs) as [h1|] eqn:E1; [|discriminate]. apply (add_block_inv f h h1 p ins outs W Hp) in E1 as (W1 & Fn & Fr & E1). pose proof (blocked_block h p ins outs W Hp Fn Fr) as B. rewrite <- E1 in B. clear E1.
    assert (Old : forall y, In y (h_nodes h) -> ~ In y (fresh_nodes f)) by (intros y A C; exact (Fr y C A)). assert (Fb : In (f_block f) (fresh_nodes f)) by now left. assert (Fc : In (f_cfg f) (fresh_nodes f)) by (cbn; tauto). assert (Fe : In (f_exit f) (fresh_nodes f)) by (cbn; tauto).
    destruct (wb_placed _ _ _ _ _ B) as (Pb & Pq & Pi).
    (* edges into the entry *)
    destruct (move_entry_edges blocks (f_block f) e h1) as [h2|] eqn:E2; [|discriminate]. unfold move_entry_edges in E2. destruct (Nat.eqb (h_in h1 e) 1); [|discriminate].
    assert (Lo : linked_outputs h1 e 0 = linked_outputs h e 0).
    { unfold linked_outputs. rewrite (wb_links _ _ _ _ _ B). etransitivity; [apply (f_equal (map fst)), (@filter_app link)|]. rewrite (filter_none _ (inner_links f ins outs)); [rewrite app_nil_r; reflexivity|]. intros l Hl. apply inner_fresh in Hl as [_ Hl].
      apply not_true_is_false. intros A. apply ep_eqb_iff in A. rewrite A in Hl. exact (Fr _ Hl (L e He)). }
    rewrite Lo in E2. assert (Nl : NoDup (linked_outputs h e 0)).
    { unfold linked_outputs. apply sources_nodup. intros l Hl. apply filter_In in Hl as [Hl El]. apply ep_eqb_iff in El. destruct (one_target h l l e ins oo rows W V Oe Hl El) as [One _]. etransitivity; [apply filter_shorter|]. apply Nat.eq_le_incl. exact One. }
    assert (W2 : wf h2).
    { refine (each_wf _ _ _ _ _ W1 E2). intros a b [s i] Wa. cbn [fst snd]. destruct (memN s blocks); [intros E; now injection E as <-|]. destruct (disconnect a s Out i) as [a1|] eqn:Da; [|discriminate]. intros Ca. exact (connect_wf _ _ _ _ _ _ (disconnect_wf _ _ _ _ _ Wa Da) Ca). }
    apply (redirect_loop blocks (f_block f) _ h1 h2 Nl) in E2. cbn zeta in E2. rewrite entries_of in E2.
    assert (Lk2 : h_links h2 = (filter (fun l => negb (goes_in blocks e l)) (h_links h) ++ inner_links f ins outs) ++ map (fun pe => (pe, (f_block f, 0))) (map fst (filter (goes_in blocks e) (h_links h)))).
    { rewrite E2. cbn [h_links set_links]. f_equal. rewrite (wb_links _ _ _ _ _ B). etransitivity; [apply (@filter_app link)|]. f_equal.
      - apply filter_ext_in. intros l Hl. f_equal. destruct (goes_in blocks e l) eqn:G.
        + apply existsb_exists. exists (fst l). split; [apply in_map, filter_In; auto|now apply ep_eqb_iff].
        + apply not_true_is_false. intros A. apply existsb_exists in A as (y & A1 & A2). apply ep_eqb_iff in A2. apply in_map_iff in A1 as (m & A3 & A4). apply filter_In in A4 as [A4 A5]. pose proof A5 as A6. unfold goes_in in A6. apply andb_true_iff in A6 as [A6 _]. apply ep_eqb_iff in A6.
          destruct (one_target h m l e ins oo rows W V Oe A4 A6) as [_ Eq]. rewrite (Eq Hl) in G by congruence. congruence.
      - apply filter_all. intros l Hl. apply inner_fresh in Hl as [Hl _]. apply negb_true_iff, not_true_is_false. intros A. apply existsb_exists in A as (y & A1 & A2). apply ep_eqb_iff in A2. apply in_map_iff in A1 as (m & A3 & A4). apply filter_In in A4 as [A4 _].
        destruct (wf_links h W _ A4) as [[Ls _] _]. apply (Fr _ Hl). rewrite A2, <- A3. exact Ls. }
    assert (R2 : h_nodes h2 = h_nodes h1 /\ h_ops h2 = h_ops h1 /\ h_in h2 = h_in h1 /\ h_out h2 = h_out h1 /\ h_parent h2 = h_parent h1 /\ h_kids h2 = h_kids h1 /\ h_root h2 = h_root h1 /\ h_entry h2 = h_entry h1) by (rewrite E2; cbn; auto 9). clear E2.
    destruct R2 as (R2n & R2o & R2i & R2u & R2p & R2k & R2r & R2e).
    assert (Nb : ~ In (f_block f) (h_kids h p)) by (rewrite (wf_kids h W); intros A; apply (wf_parent_live h W) in A; exact (Fr _ Fb (proj1 A))).
    assert (Dp : f_block f <> p) by (intros A; apply (Fr _ Fb); rewrite A; exact Hp). assert (Dc : f_cfg f <> p) by (intros A; apply (Fr _ Fc); rewrite A; exact Hp).
    (* the new block as the first one *)
    destruct (if N.eqb e first then move_sibling false h2 (f_block f) first else Some h2) as [h3|] eqn:E3; [|discriminate].
    assert (F3 : wf h3 /\ rest_same h2 h3 /\ (forall y, h_parent h3 y = h_parent h1 y) /\ h_kids h3 p = (if N.eqb e first then f_block f :: first :: kids else (first :: kids) ++ [f_block f]) /\ forall y, y <> p -> h_kids h3 y = h_kids h1 y).
    { destruct (N.eqb_spec e first) as [Ef|_].
      - assert (Pf : h_parent h2 first = Some p) by (rewrite <- Ef, R2p; destruct (wb_old _ _ _ _ _ B e (Old e (L e He))) as (_ & _ & _ & A & _); congruence). assert (Pb2 : h_parent h2 (f_block f) = Some p) by (rewrite R2p; exact Pb).
        destruct (sibling_does false h2 h3 (f_block f) first p p W2 Pb2 Pf E3) as (_ & A1 & A2 & A3 & A4). split; [exact A1|]. split; [exact A2|]. split; [intros y; rewrite A3, R2p; unfold upd; destruct (N.eqb_spec y (f_block f)) as [->|]; [now rewrite Pb|reflexivity]|]. split.
        + rewrite A4, upd_same, R2k, (wb_kids_p _ _ _ _ _ B). unfold delN. rewrite filter_app. cbn [filter]. rewrite N.eqb_refl. cbn [negb]. rewrite app_nil_r. fold (delN (f_block f) (h_kids h p)). rewrite (delN_id _ _ Nb), Ek. cbn [insert_at]. rewrite N.eqb_refl. reflexivity.
        + intros y Hy. rewrite A4, upd_other by exact Hy. rewrite R2k. apply delN_id. rewrite (wf_kids h1 W1). congruence.
      - injection E3 as <-. split; [exact W2|]. split; [unfold rest_same; auto 9|]. split; [intros y; now rewrite R2p|]. split; [rewrite R2k, (wb_kids_p _ _ _ _ _ B), Ek; reflexivity|]. intros y _. now rewrite R2k. }
    clear E3. destruct F3 as (W3 & (R3n & R3o & R3i & R3u & R3l & R3r & R3e) & P3 & K3p & K3).
    (* the edge out of the set *)
    destruct (exit_port h3 x o) as [k|] eqn:E4; [|discriminate]. assert (Ex : filter (fun l : link => ep_eqb (fst l) (x, k)) (h_links h) = [((x, k), (o, 0))]).
    { unfold exit_port in E4. destruct (forallb _ (seq 0 (h_out h3 x))) eqn:Fa; [|discriminate]. rewrite forallb_forall in Fa. destruct (filter _ (seq 0 (h_out h3 x))) as [|k0 [|? ?]] eqn:Ff; try discriminate. injection E4 as ->.
      assert (Hk : In k [k]) by now left. rewrite <- Ff in Hk. apply filter_In in Hk as [Hk Tk]. specialize (Fa k Hk). unfold linked_inputs in Fa, Tk. rewrite R3l, Lk2 in Fa, Tk.
      assert (Eq : filter (fun l : link => ep_eqb (fst l) (x, k)) ((filter (fun l => negb (goes_in blocks e l)) (h_links h) ++ inner_links f ins outs) ++ map (fun pe => (pe, (f_block f, 0))) (map fst (filter (goes_in blocks e) (h_links h)))) = filter (fun l : link => ep_eqb (fst l) (x, k)) (h_links h)).
      { etransitivity; [apply (@filter_app link)|]. rewrite (filter_none _ (map _ _)), app_nil_r.
        - etransitivity; [apply (@filter_app link)|]. rewrite (filter_none _ (inner_links f ins outs)), app_nil_r.
          + apply filter_apart. intros l Ee. apply ep_eqb_iff in Ee. unfold goes_in. rewrite Ee. cbn [fst]. rewrite (proj2 (memN_iff x blocks) Hx). apply andb_false_r.
          + intros l Hl. apply inner_fresh in Hl as [Hl _]. apply not_true_is_false. intros A. apply ep_eqb_iff in A. rewrite A in Hl. exact (Fr _ Hl (L x Hx)).
        - intros l Hl. apply in_map_iff in Hl as (pe & <- & Hl). apply in_map_iff in Hl as (m & <- & Hl). apply filter_In in Hl as [_ G]. apply not_true_is_false. cbn [fst]. intros A. apply ep_eqb_iff in A. unfold goes_in in G. rewrite A in G. cbn [fst] in G. rewrite (proj2 (memN_iff x blocks) Hx), andb_false_r in G. discriminate. }
      match type of Fa with match map snd ?A with _ => _ end = true => change A with (filter (fun l : link => ep_eqb (fst l) (x, k)) ((filter (fun l => negb (goes_in blocks e l)) (h_links h) ++ inner_links f ins outs) ++ map (fun pe => (pe, (f_block f, 0))) (map fst (filter (goes_in blocks e) (h_links h))))) in Fa, Tk end.
      rewrite Eq in Fa, Tk. destruct (filter (fun l : link => ep_eqb (fst l) (x, k)) (h_links h)) as [|[s [t j]] [|? ?]] eqn:Fi; cbn in Fa, Tk; try discriminate; try (destruct j; discriminate).
      destruct j; [|discriminate]. apply N.eqb_eq in Tk. assert (Hs : In (s, (t, 0)) (filter (fun l : link => ep_eqb (fst l) (x, k)) (h_links h))) by (rewrite Fi; now left). apply filter_In in Hs as [_ Hs]. apply ep_eqb_iff in Hs. cbn in Hs. rewrite Hs, Tk. reflexivity. }
    destruct (disconnect h3 x Out k) as [h4|] eqn:E5; [|discriminate]. pose proof (disconnect_wf _ _ _ _ _ W3 E5) as W4. apply disconnect_inv in E5. destruct (connect h4 (f_block f) 0 o 0) as [h5|] eqn:E6; [|discriminate]. pose proof (connect_wf _ _ _ _ _ _ W4 E6) as W5. apply connect_inv in E6.
    assert (Lk5 : h_links h5 = filter (fun l : link => negb (ep_eqb (fst l) (x, k))) (h_links h2) ++ [((f_block f, 0), (o, 0))]) by (rewrite E6, E5, <- R3l; reflexivity).
    assert (R5 : h_nodes h5 = h_nodes h1 /\ h_ops h5 = h_ops h1 /\ h_in h5 = h_in h1 /\ h_out h5 = h_out h1 /\ h_parent h5 = h_parent h3 /\ h_kids h5 = h_kids h3 /\ h_root h5 = h_root h1 /\ h_entry h5 = h_entry h1) by (rewrite E6, E5; cbn; repeat split; congruence).
    clear E5 E6. destruct R5 as (R5n & R5o & R5i & R5u & R5p & R5k & R5r & R5e). assert (Kc : h_kids h5 (f_cfg f) = [f_exit f]) by (rewrite R5k, (K3 _ Dc); apply (wb_kids_cfg _ _ _ _ _ B)). rewrite Kc.
    (* the blocks *)
    destruct (move_sibling false h5 e (f_exit f)) as [h6|] eqn:E7; [|discriminate]. assert (P5e : h_parent h5 e = Some p) by (rewrite R5p, P3; destruct (wb_old _ _ _ _ _ B e (Old e (L e He))) as (_ & _ & _ & A & _); congruence). assert (P5q : h_parent h5 (f_exit f) = Some (f_cfg f)) by (rewrite R5p, P3; exact Pq).
    destruct (sibling_does false h5 h6 e (f_exit f) p (f_cfg f) W5 P5e P5q E7) as (Nent & W6 & (R6n & R6o & R6i & R6u & R6l & R6r & R6e) & P6 & K6). clear E7.
    assert (De : e <> f_exit f) by (intros A; apply (Fr _ Fe); rewrite <- A; apply L, He).
    destruct (each _ blocks h6) as [h7|] eqn:E8; [|discriminate]. destruct (move_rest e p (f_cfg f) Dc blocks h6 h7 W6 Nd) as (W7 & (R7n & R7o & R7i & R7u & R7l & R7r & R7e) & P7 & K7c & K7p & K7); [|exact E8|].
    { intros n Hn Hne. rewrite P6, upd_other by exact Hne. rewrite R5p, P3. destruct (wb_old _ _ _ _ _ B n (Old n (L n Hn))) as (_ & _ & _ & A & _). rewrite A. apply Par, Hn. }
    intros E9. pose proof (connect_wf _ _ _ _ _ _ W7 E9) as W8. apply connect_inv in E9. split; [rewrite R5e, (wb_entry _ _ _ _ _ B) in Nent; exact Nent|]. split; [exact W8|]. rewrite E9.
    assert (Mvs : forall y, In y blocks -> (if moves e blocks y then Some (f_cfg f) else upd (h_parent h5) e (Some (f_cfg f)) y) = Some (f_cfg f)).
    { intros y Hy. unfold moves. rewrite (proj2 (memN_iff y blocks) Hy). cbn [andb]. destruct (N.eqb_spec y e) as [->|]; cbn [negb]; [apply upd_same|reflexivity]. }
    assert (Mvn : forall y, ~ In y blocks -> (if moves e blocks y then Some (f_cfg f) else upd (h_parent h5) e (Some (f_cfg f)) y) = h_parent h1 y).
    { intros y Hy. unfold moves. rewrite (proj2 (memN_false y blocks) Hy). cbn [andb]. rewrite upd_other by (intros ->; contradiction). rewrite R5p. apply P3. }
    assert (Fresh : forall y, In y (fresh_nodes f) -> ~ In y blocks) by (intros y A C; exact (Fr y A (L y C))).
    constructor; cbn [h_nodes h_root h_entry h_links h_ops h_in h_out h_parent h_kids set_links].
    - split; assumption.
    - intros y. rewrite R7n, R6n, R5n. apply (wb_nodes _ _ _ _ _ B).
    - rewrite R7r, R6r, R5r. apply (wb_root _ _ _ _ _ B).
    - rewrite R7e, R6e, R5e. apply (wb_entry _ _ _ _ _ B).
    - intros y Hy. destruct (wb_old _ _ _ _ _ B y (Old y Hy)) as (A1 & A2 & A3 & _). rewrite R7o, R6o, R5o, R7i, R6i, R5i, R7u, R6u, R5u. auto.
    - rewrite R7o, R6o, R5o. apply (wb_new _ _ _ _ _ B).
    - intros y Hy. rewrite P7, P6. apply Mvs, Hy.
    - intros y Hy Hn. rewrite P7, P6, (Mvn y Hn). destruct (wb_old _ _ _ _ _ B y (Old y Hy)) as (_ & _ & _ & A & _). exact A.
    - split; [rewrite P7, P6, (Mvn _ (Fresh _ Fb)); exact Pb|]. split; [rewrite P7, P6, (Mvn _ (Fresh _ Fe)); exact Pq|]. intros y Hy. rewrite P7, P6, Mvn; [apply Pi, Hy|]. apply Fresh. unfold fresh_nodes. cbn in Hy |- *. tauto.
    - rewrite K7c, K6, upd_same, Kc. unfold delN at 1. cbn [filter]. destruct (N.eqb_spec (f_exit f) e) as [A|_]; [congruence|]. cbn [negb insert_at]. rewrite N.eqb_refl. reflexivity.
    - assert (Dbc : f_block f <> f_cfg f) by (intros A; apply NoDup_cons_iff in Fn as [A1 _]; apply A1; rewrite A; cbn; tauto). rewrite (K7 _ Dbc Dp), K6, upd_other by exact Dbc. rewrite R5k, (K3 _ Dp), (wb_kids_block _ _ _ _ _ B). apply delN_id. intros A. apply (Fr e); [|exact (L e He)]. unfold fresh_nodes. cbn in A |- *. tauto.
    - rewrite K7p, K6, upd_other by congruence. rewrite R5k, K3p.
      assert (Fl : forall l, filter (fun y => negb (moves e blocks y)) (delN e l) = filter (fun y => negb (memN y blocks)) l).
      { unfold delN, moves. induction l as [|y l IH]; [reflexivity|]. cbn [filter]. destruct (N.eqb_spec y e) as [->|Ny]; cbn [negb].
        - rewrite (proj2 (memN_iff e blocks) He). cbn [negb]. exact IH.
        - cbn [filter]. rewrite (proj2 (N.eqb_neq y e) Ny). cbn [negb]. rewrite andb_true_r. destruct (memN y blocks); cbn [negb]; [exact IH|f_equal; exact IH]. }
      rewrite Fl, Ek. assert (Mb : memN (f_block f) blocks = false) by (apply memN_false, Fresh, Fb). destruct (N.eqb e first).
      + cbn [filter]. rewrite Mb. reflexivity.
      + rewrite filter_app. cbn [filter]. rewrite Mb. reflexivity.
    - intros y Hy Hyp. assert (Yc : y <> f_cfg f) by (intros ->; exact (Fr _ Fc Hy)). rewrite (K7 y Yc Hyp), K6, upd_other by exact Yc. rewrite R5k, (K3 y Hyp). destruct (wb_old _ _ _ _ _ B y (Old y Hy)) as (_ & _ & _ & _ & A). rewrite (A Hyp). apply delN_id. rewrite (wf_kids h W). congruence.
    - exists k. assert (Hxo : In ((x, k), (o, 0)) (h_links h)) by (assert (A : In ((x, k), (o, 0)) (filter (fun l : link => ep_eqb (fst l) (x, k)) (h_links h))) by (rewrite Ex; now left); apply filter_In in A; apply A). split; [exact Hxo|].
      rewrite R7l, R6l, Lk5, Lk2.
      assert (T2 : forall l, redirect f blocks e x k l = turn2 (goes_in blocks e) (f_block f, 0) (f_exit f, 0) (x, k) l) by reflexivity.
      rewrite (map_ext _ _ T2). rewrite <- (turn2_perm (goes_in blocks e) (f_block f, 0) (f_exit f, 0) (x, k) (h_links h)).
      2: { intros l _ Ee. apply ep_eqb_iff in Ee. unfold goes_in. rewrite Ee. cbn [fst]. rewrite (proj2 (memN_iff x blocks) Hx). apply andb_false_r. }
      rewrite Ex. cbn [map fst].
      assert (Pm : Permutation (filter (fun l : link => negb (ep_eqb (fst l) (x, k))) ((filter (fun l => negb (goes_in blocks e l)) (h_links h) ++ inner_links f ins outs) ++ map (fun pe => (pe, (f_block f, 0))) (map fst (filter (goes_in blocks e) (h_links h)))))
        (filter (fun l : link => negb (ep_eqb (fst l) (x, k))) (map (turn (goes_in blocks e) (f_block f, 0)) (h_links h)) ++ inner_links f ins outs)).
      { rewrite <- (filter_all (fun l : link => negb (ep_eqb (fst l) (x, k))) (inner_links f ins outs)) at 2.
        - rewrite <- (@filter_app link). apply InlineProofs.filter_perm. rewrite <- turn_perm. rewrite <- !app_assoc. apply Permutation_app_head, Permutation_app_comm.
        - intros l Hl. apply inner_fresh in Hl as [Hl _]. apply negb_true_iff, not_true_is_false. intros A. apply ep_eqb_iff in A. rewrite A in Hl. exact (Fr _ Hl (L x Hx)). }
      rewrite Pm. rewrite <- !app_assoc. apply Permutation_app_head. cbn [app].
      etransitivity; [apply Permutation_app_comm|]. cbn [app]. apply perm_swap.
  Qed.
End Main.
