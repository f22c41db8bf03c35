(** Changing the signature of a function: the whole function. *)
From Coq Require Import List Bool NArith Arith Lia Permutation.
From Verif Require Import TypesModel GraphModel GraphSpec GraphProofs GraphRemove OpModel OpSpec DeadModel InlineModel InlineProofs ReplaceModel ValidModel ValidSpec MapioModel MapioSpec MapioProofs.
Import ListNotations.
Local Notation wf := GraphSpec.wf.

Section Main.
  Context {M : Type}.
  Notation hugr := (hugr op M).
  Variable env : N -> N -> option typedef.
  Variable defs : N -> N -> opsig.
  Variable h : hugr.
  Variables (f i o nm : N) (sg : poly) (pub : bool).
  Hypothesis W : wf h.
  Hypothesis V : valid env defs h.
  Hypothesis Of : h_ops h f = OFuncDefn nm sg pub.
  Hypothesis Io : get_io h f = Some (i, o).

  Lemma fn_kids : exists rest, h_kids h f = i :: o :: rest.
  Proof. unfold get_io in Io. destruct (flow_parent _); [|discriminate]. destruct (h_kids h f) as [|a [|b r]]; try discriminate. injection Io as -> ->. eauto. Qed.
  Lemma fn_parents : h_parent h i = Some f /\ h_parent h o = Some f.
  Proof. destruct fn_kids as (r & K). split; apply (wf_kids _ W); rewrite K; cbn; auto. Qed.
  Lemma live_of n p : h_parent h n = Some p -> In n (h_nodes h).
  Proof. intros H. destruct (in_dec N.eq_dec n (h_nodes h)) as [|Hn]; [assumption|]. destruct (wf_unused _ W n Hn). congruence. Qed.
  Lemma fn_live : In f (h_nodes h) /\ In i (h_nodes h) /\ In o (h_nodes h).
  Proof.
    destruct fn_parents as [A B]. split; [|split; eapply live_of; eassumption]. destruct (in_dec N.eq_dec f (h_nodes h)) as [|Hn]; [assumption|].
    destruct (wf_unused _ W f Hn) as [_ E]. destruct fn_kids as (r & K). congruence.
  Qed.
  Lemma fn_ops : h_ops h i = OInput (p_ins sg) /\ h_ops h o = OOutput (p_outs sg).
  Proof.
    destruct (v_region _ _ _ V f (proj1 fn_live) (p_ins sg) (p_outs sg)) as [(a & b & r & K & A & B & _) _]; [rewrite Of; constructor|].
    destruct fn_kids as (r' & K'). rewrite K' in K. injection K as -> -> _. auto.
  Qed.
  Lemma fn_distinct : f <> i /\ f <> o /\ i <> o.
  Proof. destruct fn_ops as [A B]. repeat split; intros E; rewrite E in *; congruence. Qed.
  Lemma fn_ports : h_in h f = 0 /\ h_out h f = 1 /\ h_in h i = 0 /\ h_out h i = S (length (p_ins sg)) /\ h_in h o = S (length (p_outs sg)) /\ h_out h o = 0.
  Proof.
    destruct fn_ops as [A B]. destruct fn_live as (Lf & Li & Lo).
    destruct (v_ports _ _ _ V f Lf) as (? & ? & P1 & P2 & P3 & P4). rewrite Of in P1, P2. inversion P1; inversion P2; subst.
    destruct (v_ports _ _ _ V i Li) as (? & ? & Q1 & Q2 & Q3 & Q4). rewrite A in Q1, Q2. inversion Q1; inversion Q2; subst.
    destruct (v_ports _ _ _ V o Lo) as (? & ? & R1 & R2 & R3 & R4). rewrite B in R1, R2. inversion R1; inversion R2; subst.
    rewrite P3, P4, Q3, Q4, R3, R4, !app_length. unfold values. rewrite !map_length. cbn. repeat split; lia.
  Qed.
  Lemma from_i l : In l (h_links h) -> fst (snd l) <> i.
  Proof. intros H E. destruct (wf_links _ W _ H) as [_ [_ A]]. rewrite E in A. destruct fn_ports as (_ & _ & B & _). lia. Qed.
  Lemma from_o l : In l (h_links h) -> fst (fst l) <> o.
  Proof. intros H E. destruct (wf_links _ W _ H) as [[_ A] _]. rewrite E in A. destruct fn_ports as (_ & _ & _ & _ & _ & B). lia. Qed.

  (** The links that touch neither boundary node. *)
  Definition apart : list link := filter (fun l => negb (touches o l)) (filter (fun l => negb (touches i l)) (h_links h)).
  Lemma apart_in l : In l apart <-> In l (h_links h) /\ fst (fst l) <> i /\ fst (snd l) <> o.
  Proof.
    unfold apart. rewrite !filter_In. unfold touches. split.
    - intros [[A B] C]. apply negb_true_iff, orb_false_iff in B as [B1 B2]. apply negb_true_iff, orb_false_iff in C as [C1 C2]. apply N.eqb_neq in B1, C2. auto.
    - intros (A & B & C). pose proof (from_i _ A). pose proof (from_o _ A). rewrite !(proj2 (N.eqb_neq _ _)) by assumption. auto.
  Qed.

  (** The function after the update of its signature. *)
  Definition resigned_at (L : list link) (r s : row) : hugr :=
    mkHugr (h_nodes h) (upd (upd (upd (h_ops h) f (OFuncDefn nm {| p_params := []; p_ins := r; p_outs := s |} pub)) i (OInput r)) o (OOutput s)) (h_meta h)
      (upd (upd (upd (h_in h) f 0) i 0) o (S (length s))) (upd (upd (upd (h_out h) f 1) i (S (length r))) o 0) L
      (h_parent h) (h_kids h) (h_root h) (h_entry h).
  Definition resigned := resigned_at apart.

  Lemma num_ports_same (g : hugr) n a b : In n (h_nodes g) ->
    (forall l, In l (h_links g) -> (fst (fst l) = n -> snd (fst l) < b) /\ (fst (snd l) = n -> snd (snd l) < a)) ->
    set_num_ports g n a b = Some (set_ports g (upd (h_in g) n a) (upd (h_out g) n b)).
  Proof.
    intros Hn Hl. unfold set_num_ports, contains. rewrite (proj2 (memN_iff n (h_nodes g)) Hn). f_equal. rewrite filter_all.
    - destruct g; reflexivity.
    - intros l H. destruct (Hl l H) as [A B]. apply andb_true_iff. split; apply negb_true_iff, andb_false_iff.
      + destruct (N.eqb_spec (fst (fst l)) n) as [E|]; [right; apply Nat.leb_gt, A, E|now left].
      + destruct (N.eqb_spec (fst (snd l)) n) as [E|]; [right; apply Nat.leb_gt, B, E|now left].
  Qed.
  Lemma replace_here (g : hugr) n (x : op) : In n (h_nodes g) -> replace_op g n x = Some (set_ops g (upd (h_ops g) n x)).
  Proof. intros Hn. unfold replace_op, contains. now rewrite (proj2 (memN_iff n (h_nodes g)) Hn). Qed.

  Lemma update_at L r s fuel : (forall l, In l L -> In l (h_links h)) ->
    (forall l, In l L -> (fst (fst l) = i -> snd (fst l) < S (length r)) /\ (fst (snd l) = o -> snd (snd l) < S (length s))) ->
    update_signatures (r, s) (S fuel) false (set_links h L) f = Some (resigned_at L r s).
  Proof.
    intros Sub Bd. destruct fn_live as (Lf & Li & Lo). destruct fn_ops as [Oi Oo]. destruct fn_distinct as (D1 & D2 & D3). destruct fn_ports as (P1 & P2 & P3 & P4 & P5 & P6).
    assert (LA : forall l, In l L -> ((fst (fst l) = i -> snd (fst l) < S (length r)) /\ fst (snd l) <> i) /\ (fst (fst l) <> o /\ (fst (snd l) = o -> snd (snd l) < S (length s))) /\ (fst (fst l) = f -> snd (fst l) < 1) /\ fst (snd l) <> f).
    { intros l Hl. destruct (Bd l Hl) as [B1 B2]. pose proof (Sub _ Hl) as A. pose proof (from_i _ A). pose proof (from_o _ A). destruct (wf_links _ W _ A) as [[_ X] [_ Y]].
      repeat split; auto; [intros E; rewrite E in X; lia|intros E; rewrite E in Y; lia]. }
    assert (Ei : in_count (OInput r) = 0 /\ out_count (OInput r) = S (length r) /\ in_count (OOutput s) = S (length s) /\ out_count (OOutput s) = 0).
    { unfold in_count, out_count, port_count, value_port_count, non_df_port_count. cbn. repeat split; lia. }
    destruct Ei as (E1 & E2 & E3 & E4).
    cbn [update_signatures set_links h_ops]. rewrite Of. cbn [has_signature].
    change (get_io (set_links h L) f) with (get_io h f). rewrite Io. cbn [each].
    unfold update_signature at 1. cbn [set_links h_ops]. rewrite Of. rewrite replace_here by exact Lf. cbn [fst snd].
    rewrite num_ports_same; [|exact Lf|cbn [set_ops set_links h_links]; intros l Hl; destruct (LA l Hl) as (_ & _ & A & B); cbn; split; [exact A|contradiction]].
    unfold update_signature at 1. cbn [set_ports set_ops set_links h_ops]. rewrite upd_other by congruence. rewrite Oi. rewrite replace_here by exact Li. cbn [fst snd]. rewrite E1, E2.
    rewrite num_ports_same; [|exact Li|cbn [set_ports set_ops set_links h_links]; intros l Hl; destruct (LA l Hl) as ([A B] & _); split; [exact A|contradiction]].
    unfold update_signature at 1. cbn [set_ports set_ops set_links h_ops]. rewrite !upd_other by congruence. rewrite Oo. rewrite replace_here by exact Lo. cbn [fst snd]. rewrite E3, E4.
    rewrite num_ports_same; [|exact Lo|cbn [set_ports set_ops set_links h_links]; intros l Hl; destruct (LA l Hl) as (_ & [A B] & _); split; [contradiction|exact B]].
    cbn [set_ports set_ops set_links h_nodes h_ops h_meta h_in h_out h_links h_parent h_kids h_root h_entry].
    match goal with |- context [get_parent ?X f] => change X with (resigned_at L r s) end.
    destruct (get_parent (resigned_at L r s) f) as [p|] eqn:Gp; [|reflexivity].
    assert (Hp : h_parent h f = Some p) by (unfold get_parent in Gp; cbn in Gp; destruct (_ && _); [exact Gp|discriminate]).
    pose proof (v_tree _ _ _ V f p Hp) as T. rewrite Of in T.
    assert (Ep : h_ops h p = OModule) by (inversion T; subst; auto; match goal with H : in_dataflow _ |- _ => inversion H end).
    assert (Er : h_ops (resigned_at L r s) p = OModule).
    { cbn. rewrite !upd_other; [exact Ep| | |]; intros ->; congruence. }
    destruct fuel; cbn [update_signatures]; rewrite Er; reflexivity.
  Qed.

  Lemma update_all r s fuel : update_signatures (r, s) (S fuel) false (set_links h apart) f = Some (resigned r s).
  Proof. apply update_at; intros l Hl; apply apart_in in Hl as (A & B & C); [exact A|]. split; contradiction. Qed.

  (** ** The new links *)
  Variables ins outs : list nat.
  Hypothesis G : good_map h i (p_ins sg) (p_outs sg) ins outs.

  Definition in_links_new : list link :=
    flat_map (fun e : nat * nat => flat_map (fun d : endpoint => if N.eqb (fst d) o then [] else [((i, fst e), d)]) (linked_inputs h i (snd e))) (enumerate ins).
  Definition out_links_new : list link :=
    flat_map (fun e : nat * nat => flat_map (fun s : endpoint => [(moved i ins s, (o, fst e))]) (linked_outputs h o (snd e))) (enumerate outs).

  Lemma nth_ports (g : nat -> list endpoint) k n : k < n -> nth k (map g (seq 0 n)) [] = g k.
  Proof. intros H. rewrite (nth_indep _ [] (g 0)) by (rewrite map_length, seq_length; exact H). rewrite map_nth, seq_nth by exact H. reflexivity. Qed.

  Lemma linked_out_iff n k s : In s (linked_outputs h n k) <-> In (s, (n, k)) (h_links h).
  Proof.
    unfold linked_outputs. rewrite in_map_iff. split.
    - intros ([s' e] & <- & H). apply filter_In in H as [H E]. apply ep_eqb_iff in E. cbn in E. subst e. exact H.
    - intros H. exists (s, (n, k)). split; [reflexivity|]. apply filter_In. split; [exact H|]. now apply ep_eqb_iff.
  Qed.

  Lemma enum_at p k (l : list nat) : In (p, k) (enumerate l) -> p < length l /\ In k l.
  Proof. intros H. apply enum_in in H. split; [apply nth_error_Some; congruence|eapply nth_error_In; eassumption]. Qed.

  Lemma in_rows (r s : row) : picked (p_ins sg) ins r -> picked (p_outs sg) outs s ->
    link_inputs (map (linked_inputs h i) (seq 0 (h_out h i))) i o ins (resigned r s) = Some (set_links (resigned r s) (apart ++ in_links_new)).
  Proof.
    intros Hr Hs. destruct fn_live as (Lf & Li & Lo). destruct fn_distinct as (D1 & D2 & D3). destruct fn_ports as (P1 & P2 & P3 & P4 & P5 & P6).
    unfold link_inputs. change (resigned r s) with (set_links (resigned r s) apart) at 1.
    refine (each_append _ _ _ _ (enumerate ins) _ apart). intros [p k] L Hpk. cbn [fst snd]. destruct (enum_at _ _ _ Hpk) as [Hp Hk].
    rewrite nth_ports by (rewrite P4; apply (gm_known_in _ _ _ _ _ _ G) in Hk; lia).
    refine (each_append _ _ _ _ (linked_inputs h i k) _ L). intros [d q] L' Hd. apply (proj1 (linked_in_iff h i k (d, q))) in Hd. cbn [fst snd].
    destruct (N.eqb_spec d o) as [->|Hn]; [now rewrite app_nil_r|]. destruct (wf_links _ W _ Hd) as [_ [X Y]]. cbn [fst snd] in X, Y.
    pose proof (from_i _ Hd) as Z. cbn in Z.
    apply connect_at; (split; [assumption|]); unfold resigned; cbn [resigned_at h_in h_out fst snd].
    - rewrite upd_other by congruence. rewrite upd_same. rewrite (picked_length _ _ _ Hr). lia.
    - rewrite !upd_other by (try assumption; intros ->; lia). exact Y.
  Qed.

  Lemma out_rows (r s : row) L : picked (p_ins sg) ins r -> picked (p_outs sg) outs s ->
    link_outputs (straight (map (linked_inputs h i) (seq 0 (h_out h i))) o ins) (map (linked_outputs h o) (seq 0 (h_in h o))) i o outs (set_links (resigned r s) L) =
    Some (set_links (resigned r s) (L ++ out_links_new)).
  Proof.
    intros Hr Hs. destruct fn_live as (Lf & Li & Lo). destruct fn_distinct as (D1 & D2 & D3). destruct fn_ports as (P1 & P2 & P3 & P4 & P5 & P6). destruct fn_ops as [Oi Oo].
    unfold link_outputs. refine (each_append _ _ _ _ (enumerate outs) _ L). intros [q k] L' Hqk. cbn [fst snd]. destruct (enum_at _ _ _ Hqk) as [Hq Hk].
    pose proof (gm_known_out _ _ _ _ _ _ G _ Hk) as Hk'. rewrite nth_ports by lia.
    refine (each_append _ _ _ _ (linked_outputs h o k) _ L'). intros [n p] L2 Hnp. apply (proj1 (linked_out_iff o k (n, p))) in Hnp. cbn [fst snd].
    assert (Port : in_port (resigned r s) (o, q)).
    { split; [exact Lo|]. unfold resigned; cbn [resigned_at h_in fst snd]. rewrite upd_same, (picked_length _ _ _ Hs). lia. }
    unfold moved. cbn [fst snd]. destruct (wf_links _ W _ Hnp) as [[X Y] _]. cbn [fst snd] in X, Y. destruct (N.eqb_spec n i) as [->|Hn].
    - assert (Hp : In p ins) by (eapply (gm_used _ _ _ _ _ _ G); exact Hnp).
      assert (E : new_input_of (straight (map (linked_inputs h i) (seq 0 (h_out h i))) o ins) k = Some (place p ins)).
      { unfold new_input_of. destruct (find _ _) as [[k' a]|] eqn:F.
        - apply find_some in F as [A B]. cbn in B. apply Nat.eqb_eq in B. subst k'. cbn. f_equal. unfold straight in A. apply in_rev in A.
          apply in_flat_map in A as ([a' p'] & A1 & A2). apply in_map_iff in A2 as ([o' k'] & [= -> ->] & A2). apply filter_In in A2 as [A2 A3]. cbn [fst snd] in *. apply N.eqb_eq in A3. subst o'.
          destruct (enum_at _ _ _ A1) as [_ Hp']. rewrite nth_ports in A2 by (rewrite P4; apply (gm_known_in _ _ _ _ _ _ G) in Hp'; lia).
          apply (proj1 (linked_in_iff h i p' (o, k))) in A2.
          assert (p' = p).
          { destruct (nth_error (p_outs sg) k) as [t|] eqn:Et; [|apply nth_error_None in Et; lia].
            assert (Hl : length (in_links h (o, k)) = 1).
            { apply (v_inputs _ _ _ V o k (EValue t) Lo). exists (values (p_outs sg) ++ [EOrder]). rewrite Oo. split; [constructor|]. rewrite nth_error_app1 by (unfold values; rewrite map_length; exact Hk').
              unfold values. now rewrite nth_error_map, Et. }
            assert (I1 : In ((i, p), (o, k)) (in_links h (o, k))) by (apply filter_In; split; [exact Hnp|now apply ep_eqb_iff]).
            assert (I2 : In ((i, p'), (o, k)) (in_links h (o, k))) by (apply filter_In; split; [exact A2|now apply ep_eqb_iff]).
            destruct (in_links h (o, k)) as [|x [|]]; try discriminate. destruct I1 as [->|[]]. destruct I2 as [I2|[]]. congruence. }
          subst p'. symmetry. apply enum_in in A1. now apply (place_unique _ _ _ (gm_once _ _ _ _ _ _ G)).
        - exfalso. refine (Bool.diff_true_false _). rewrite <- (find_none _ _ F (k, place p ins)); [cbn; now rewrite Nat.eqb_refl|].
          unfold straight. apply -> in_rev. apply in_flat_map. exists (place p ins, p). split; [apply enum_in, place_nth, Hp|]. apply in_map_iff. exists (o, k). split; [reflexivity|]. apply filter_In. cbn [fst snd]. rewrite N.eqb_refl. split; [|reflexivity].
          rewrite nth_ports by (rewrite P4; apply (gm_known_in _ _ _ _ _ _ G) in Hp; lia). apply (proj2 (linked_in_iff h i p (o, k))). exact Hnp. }
      rewrite E. apply connect_at; [|exact Port]. split; [exact Li|]. unfold resigned; cbn [resigned_at h_out fst snd]. rewrite upd_other by congruence. rewrite upd_same, (picked_length _ _ _ Hr).
      assert (place p ins < length ins) by (apply nth_error_Some; rewrite (place_nth _ _ Hp); congruence). lia.
    - apply connect_at; [|exact Port]. split; [exact X|]. unfold resigned; cbn [resigned_at h_out fst snd]. pose proof (from_o _ Hnp) as Z. cbn in Z.
      rewrite upd_other by congruence. rewrite upd_other by congruence. destruct (N.eq_dec n f) as [->|Hf]; [rewrite upd_same; lia|]. rewrite upd_other by assumption. exact Y.
  Qed.

  Lemma flat_if {A B} (c : A -> bool) (g : A -> B) l : flat_map (fun x => if c x then [] else [g x]) l = map g (filter (fun x => negb (c x)) l).
  Proof. induction l as [|x l IH]; [reflexivity|]. cbn. destruct (c x); cbn; now rewrite IH. Qed.
  Lemma flat_one {A B} (g : A -> B) l : flat_map (fun x => [g x]) l = map g l.
  Proof. induction l as [|x l IH]; [reflexivity|]. cbn. now rewrite IH. Qed.

  Lemma links_kept n k : n <> o -> (forall l, In l (in_links h (n, k)) -> fst (fst l) <> i) ->
    filter (fun l : link => ep_eqb (snd l) (n, k)) (apart ++ in_links_new ++ out_links_new) = in_links h (n, k).
  Proof.
    intros Hn Hi. rewrite !filter_app. replace (filter _ in_links_new) with (@nil link).
    - replace (filter _ out_links_new) with (@nil link).
      + rewrite !app_nil_r. unfold apart. rewrite !filter_filter. apply filter_same. intros l Hl. destruct (ep_eqb (snd l) (n, k)) eqn:E; [|now rewrite ?andb_false_r].
        pose proof (from_i _ Hl) as A. pose proof (from_o _ Hl) as B. assert (X : fst (fst l) <> i) by (apply Hi, filter_In; auto). apply ep_eqb_iff in E.
        unfold touches. rewrite E. cbn [fst]. rewrite E in A. cbn in A. rewrite !(proj2 (N.eqb_neq _ _)) by assumption. reflexivity.
      + symmetry. apply filter_none. intros l Hl. unfold out_links_new in Hl. apply in_flat_map in Hl as (e & _ & Hl). apply in_flat_map in Hl as (s & _ & [<-|[]]). cbn [snd].
        destruct (ep_eqb (o, fst e) (n, k)) eqn:E; [|reflexivity]. apply ep_eqb_iff in E. congruence.
    - symmetry. apply filter_none. intros l Hl. unfold in_links_new in Hl. apply in_flat_map in Hl as (e & _ & Hl). apply in_flat_map in Hl as (d & Hd & Hl).
      destruct (N.eqb (fst d) o); [destruct Hl|]. destruct Hl as [<-|[]]. cbn [snd]. destruct (ep_eqb d (n, k)) eqn:E; [|reflexivity]. apply ep_eqb_iff in E. subst d. apply linked_in_iff in Hd.
      exfalso. refine (Hi ((i, snd e), (n, k)) _ eq_refl). apply filter_In. split; [exact Hd|]. now apply ep_eqb_iff.
  Qed.

  Lemma links_expected : Permutation (apart ++ in_links_new ++ out_links_new) (expected_links h i o ins outs).
  Proof.
    unfold expected_links. rewrite app_assoc. apply Permutation_app.
    - set (K := filter (fun l : link => negb (N.eqb (fst (snd l)) o)) (h_links h)). set (P := fun l : link => negb (N.eqb (fst (fst l)) i)).
      set (mv := fun l : link => (moved i ins (fst l), snd l)).
      assert (E1 : map mv (filter P K) = apart).
      { unfold apart, K, P. rewrite !filter_filter. transitivity (filter (fun x : link => negb (N.eqb (fst (snd x)) o) && negb (N.eqb (fst (fst x)) i)) (h_links h)).
        - rewrite <- map_id. apply map_ext_in. intros l Hl. apply filter_In in Hl as [_ Hl]. apply andb_true_iff in Hl as [_ Hl]. unfold mv, moved. apply negb_true_iff in Hl. rewrite Hl. now destruct l.
        - apply filter_same. intros l Hl. pose proof (from_i _ Hl) as A. pose proof (from_o _ Hl) as B. unfold touches. rewrite (proj2 (N.eqb_neq _ _) A), (proj2 (N.eqb_neq _ _) B). rewrite orb_false_r, andb_comm. reflexivity. }
      transitivity (map mv (filter P K ++ filter (fun x => negb (P x)) K)); [|apply Permutation_map, Permutation_sym, filter_split].
      rewrite map_app, E1. apply Permutation_app_head.
      { set (X := filter (fun x => negb (P x)) K).
        assert (HX : forall x, In x X -> In x (h_links h) /\ fst (fst x) = i /\ fst (snd x) <> o).
        { intros x Hx. unfold X, K, P in Hx. rewrite !filter_In in Hx. destruct Hx as [[A B] C]. rewrite negb_involutive in C. apply N.eqb_eq in C. apply negb_true_iff, N.eqb_neq in B. auto. }
        apply Permutation_sym. transitivity (map (fun l : link => ((i, 0 + place (snd (fst l)) ins), snd l)) X).
        - apply Permutation_refl'. apply map_ext_in. intros l Hl. destruct (HX _ Hl) as (_ & B & _). unfold mv, moved. rewrite B, N.eqb_refl. reflexivity.
        - etransitivity; [apply (by_place i ins 0 X (gm_once _ _ _ _ _ _ G))|].
          + intros [[n p] d] Hx. destruct (HX _ Hx) as (A & B & _). cbn in B. subst n. eapply (gm_used _ _ _ _ _ _ G). exact A.
          + apply Permutation_refl'. unfold in_links_new, enumerate. apply flat_map_same. intros [p k] _. cbn [fst snd].
            rewrite (flat_if (fun d : endpoint => N.eqb (fst d) o)). unfold linked_inputs, X, K, P. rewrite !filter_filter.
            clear. unfold ep_eqb. induction (h_links h) as [|[[n q] [d j]] L IH]; [reflexivity|]. cbn in *.
            destruct (N.eqb n i); cbn; [|rewrite ?andb_false_r; exact IH]. destruct (Nat.eqb q k); cbn; [|rewrite ?andb_false_r; exact IH].
            destruct (N.eqb d o); cbn; rewrite ?IH; reflexivity. }
    - apply Permutation_refl'. unfold out_links_new, enumerate. apply flat_map_same. intros [q k] _. cbn [fst snd]. rewrite flat_one. unfold linked_outputs, in_links. now rewrite map_map.
  Qed.
End Main.
