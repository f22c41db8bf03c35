(** The result of a replacement. *)
From Coq Require Import List Bool NArith Arith Lia Permutation.
From Verif Require Import TagModel TypesModel GraphModel GraphSpec GraphProofs GraphRemove GraphProps InsertModel InsertSpec InsertProofs InsertProps OpModel DeadModel DeadProofs
  InlineModel InlineProofs InlineTree ReplaceModel ReplaceSpec ReplaceProofs ReplaceStages.
Import ListNotations.

Lemma forall2_map : forall A B (R : A -> B -> Prop) (g : A -> B) l, (forall x, In x l -> R x (g x)) -> Forall2 R l (map g l).
Proof. intros A B R g. induction l as [|x l IH]; intros H; [constructor|]. cbn. constructor; [apply H; now left|]. apply IH. intros y I. apply H. now right. Qed.

Section Main.
  Context {M : Type}.
  Notation hugr := (hugr op M).
  Variables h repl : hugr.
  Variable sg : subgraph.
  Variables i o parent : N.
  Variable fresh : list N.
  Hypothesis W : wf h.
  Hypothesis Wr : wf repl.
  Hypothesis SO : subgraph_ok h sg parent.
  Hypothesis RO : replacement_ok repl sg i o.
  Hypothesis Df : NoDup fresh.
  Hypothesis Fr : forall y, In y fresh -> ~ In y (h_nodes h).
  Hypothesis Len : length (h_nodes repl) <= length fresh.
  Notation gone := (gone sg).
  Notation left := (left sg).
  Notation interior := (interior repl i o).
  Notation provides := (provides h repl sg i o).
  Notation hsrc := (hsrc h sg).
  Notation final := (final h repl sg i o).
  Notation pos := (pos sg).

  Lemma parent_live : In parent (h_nodes h) /\ left parent.
  Proof.
    destruct (sg_nodes sg) as [|n ns] eqn:E; [destruct (so_some _ _ _ SO E)|]. assert (G : gone n) by (unfold ReplaceSpec.gone; rewrite E; now left).
    destruct (so_children _ _ _ SO n G) as (P & _). split; [now apply (wf_parent_live h W n parent)|]. intros G'.
    destruct (so_children _ _ _ SO parent G') as (P' & _). apply (no_cycle h W parent parent P'). constructor.
  Qed.

  Lemma gone_live : forall n, gone n -> In n (h_nodes h).
  Proof. intros n G. destruct (so_children _ _ _ SO n G) as (P & _). now apply (wf_parent_live h W n parent). Qed.

  Lemma left_b : forall n, memN n (sg_nodes sg) = false <-> left n.
  Proof. intros n. apply memN_false. Qed.

  Theorem replace_with_ok : exists h' m f, replace_with h repl sg fresh parent = Some (h', m) /\ wf h' /\
    (forall x y, InsertModel.lookup m x = Some y <-> interior x /\ y = f x) /\ replaces h repl sg i o parent f h'.
  Proof.
    destruct parent_live as [Ip Lp]. destruct (ro_kids _ _ _ _ RO) as (rest & Kids). destruct (ro_leaves _ _ _ _ RO) as [Li Lo].
    destruct (open_region h repl i o parent fresh W Wr Ip rest Kids Li Lo Df Fr Len) as (h1 & m1 & i' & o' & e' & h2 & h3 & h4 & f & E1 & Mi & Mo & Me & E2 & E3 & E4 & Op).
    set (m := forget (forget (forget m1 i) o) (h_entry repl)) in *.
    destruct (incoming_spec h repl sg i o parent W SO RO) as (A & EA & PA).
    destruct (outgoing_spec h repl sg i o parent W Wr SO RO) as (B & C & EB & EC & PBC).
    set (edges := map (fun x : endpoint * endpoint => (Host (fst x), Repl (snd x))) A ++ map (fun x : endpoint * endpoint => (Repl (fst x), Host (snd x))) B ++ map (fun x : endpoint * endpoint => (Host (fst x), Host (snd x))) C).
    assert (EE : all_boundary_edges h repl sg i o = Some edges) by (unfold all_boundary_edges; now rewrite EA, EB, EC).
    set (inb := fun l : link => mem_ep (fst l) (from_inputs sg i) && negb (N.eqb (fst (snd l)) o)) in *.
    set (outb := fun l : link => mem_ep (fst l) (sg_out sg)) in *.
    assert (PE : Permutation edges (map (fun l : link => (Host (hsrc (snd (fst l))), Repl (snd l))) (filter inb (h_links repl)) ++ map (via_output h repl sg i o) (filter outb (h_links h)))).
    { unfold edges. apply Permutation_app; [|exact PBC]. etransitivity; [apply Permutation_map; exact PA|]. rewrite map_map. apply Permutation_refl. }
    (* what the edges join *)
    assert (Hin : forall l, In l (h_links repl) -> inb l = true -> fst (fst l) = i /\ snd (fst l) < length (sg_in sg) /\ interior (fst (snd l))).
    { intros [[a p] t] Il X. unfold inb in X. apply andb_true_iff in X. destruct X as [X Y]. apply mem_ep_iff, from_inputs_iff in X. cbn [fst snd] in *. destruct X as [-> X].
      split; [reflexivity|]. split; [exact X|]. destruct (ro_from_in _ _ _ _ RO p t Il X) as [Z|[Z _]]; [exact Z|]. apply negb_true_iff, N.eqb_neq in Y. contradiction. }
    assert (Hfinal : forall q, q < length (sg_out sg) -> match final q with Host s => left (fst s) /\ out_port h s | Repl s => interior (fst s) /\ out_port repl s end).
    { intros q Lq. destruct (rsrc_facts repl sg i o Wr RO q Lq) as (_ & _ & R3 & R4). unfold ReplaceProofs.final. destruct (N.eqb_spec (fst (rsrc repl o q)) i) as [X|X].
      - destruct R3 as [R3|[_ R3]]; [rewrite X in R3; destruct (not_interior_i repl i o R3)|]. destruct (hsrc_facts h repl sg i o parent W SO _ R3) as (P1 & P2 & _). now split.
      - destruct R3 as [R3|[R3 _]]; [now split|contradiction]. }
    assert (Hout : forall l, In l (h_links h) -> outb l = true -> gone (fst (fst l)) /\ pos (fst l) < length (sg_out sg) /\ nth_error (sg_out sg) (pos (fst l)) = Some (fst l)).
    { intros l Il X. apply mem_ep_iff in X. destruct (pos_in h sg parent SO _ X) as [P1 P2]. split; [apply (so_out _ _ _ SO _ X)|]. now split. }
    (* live ports *)
    assert (Lh_out : forall e : endpoint, out_port h e -> out_port h4 e).
    { intros e [P1 P2]. destruct (op_host _ _ _ _ _ _ _ _ _ Op _ P1) as ((_ & _ & _ & X & _) & _). split; [apply (op_nodes _ _ _ _ _ _ _ _ _ Op); now left|now rewrite X]. }
    assert (Lh_in : forall e : endpoint, in_port h e -> in_port h4 e).
    { intros e [P1 P2]. destruct (op_host _ _ _ _ _ _ _ _ _ Op _ P1) as ((_ & _ & X & _ & _) & _). split; [apply (op_nodes _ _ _ _ _ _ _ _ _ Op); now left|now rewrite X]. }
    assert (Lr_out : forall e : endpoint, interior (fst e) -> out_port repl e -> out_port h4 (f (fst e), snd e)).
    { intros e I [_ P2]. destruct (op_copies _ _ _ _ _ _ _ _ _ Op _ I) as (_ & _ & _ & X & _). split; [apply (op_nodes _ _ _ _ _ _ _ _ _ Op); right; exists (fst e); auto|cbn; now rewrite X]. }
    assert (Lr_in : forall e : endpoint, interior (fst e) -> in_port repl e -> in_port h4 (f (fst e), snd e)).
    { intros e I [_ P2]. destruct (op_copies _ _ _ _ _ _ _ _ _ Op _ I) as (_ & _ & X & _). split; [apply (op_nodes _ _ _ _ _ _ _ _ _ Op); right; exists (fst e); auto|cbn; now rewrite X]. }
    assert (MP : forall b, match b with Host _ => True | Repl e => interior (fst e) end -> map_port m b = Some (place f b)).
    { intros [e|e] X; [reflexivity|]. cbn [map_port place]. rewrite (proj2 (op_map _ _ _ _ _ _ _ _ _ Op (fst e) (f (fst e)))) by auto. reflexivity. }
    set (put := fun x : bport * bport => (place f (fst x), place f (snd x))).
    assert (Ports : forall x, In x edges -> add_boundary m h4 x = connect h4 (fst (fst (put x))) (snd (fst (put x))) (fst (snd (put x))) (snd (snd (put x))) /\
               map_port m (fst x) = Some (fst (put x)) /\ map_port m (snd x) = Some (snd (put x)) /\
               out_port h4 (fst (put x)) /\ in_port h4 (snd (put x))).
    { intros x Ix. apply (Permutation_in _ PE), in_app_iff in Ix. assert (Y : map_port m (fst x) = Some (fst (put x)) /\ map_port m (snd x) = Some (snd (put x)) /\ out_port h4 (fst (put x)) /\ in_port h4 (snd (put x))).
      { destruct Ix as [Ix|Ix]; apply in_map_iff in Ix; destruct Ix as (l & <- & Il); apply filter_In in Il; destruct Il as [Il Hl].
        - destruct (Hin l Il Hl) as (X1 & X2 & X3). destruct (hsrc_facts h repl sg i o parent W SO _ X2) as (_ & P2 & _). cbn [fst snd put place]. split; [reflexivity|].
          split; [now apply (MP (Repl (snd l)))|]. split; [now apply Lh_out|]. apply Lr_in; [exact X3|]. exact (proj2 (wf_links repl Wr l Il)).
        - destruct (Hout l Il Hl) as (X1 & X2 & X3). pose proof (Hfinal _ X2) as F. unfold via_output, put. cbn [fst snd]. split; [|split; [reflexivity|split; [|apply Lh_in; exact (proj2 (wf_links h W l Il))]]].
          + apply MP. destruct (final (pos (fst l))); [exact Logic.I|apply F].
          + destruct (final (pos (fst l))) as [s|s]; cbn [place]; destruct F as [F1 F2]; [now apply Lh_out|now apply Lr_out]. }
      split; [|exact Y]. unfold add_boundary. destruct Y as (Y1 & Y2 & _). now rewrite Y1, Y2. }
    set (L5 := h_links h4 ++ map put edges).
    assert (E5 : each (add_boundary m) edges h4 = Some (set_links h4 L5)).
    { assert (X : forall L, each (add_boundary m) edges (set_links h4 L) = Some (set_links h4 (L ++ flat_map (fun x => [put x]) edges))).
      { apply each_append. intros x L Ix. destruct (Ports x Ix) as (_ & Y1 & Y2 & Y3 & Y4). unfold add_boundary. rewrite Y1, Y2. destruct (put x) as [[a b] [c d]]. cbn [fst snd] in *. now apply connect_at. }
      specialize (X (h_links h4)). rewrite flat_single in X. fold L5 in X. rewrite <- X. f_equal. destruct h4; reflexivity. }
    set (h5 := set_links h4 L5) in *.
    assert (W5 : wf h5).
    { apply links_wf; [apply (op_wf _ _ _ _ _ _ _ _ _ Op)|]. intros l Il. unfold L5 in Il. apply in_app_iff in Il. destruct Il as [Il|Il]; [exact (wf_links h4 (op_wf _ _ _ _ _ _ _ _ _ Op) l Il)|].
      apply in_map_iff in Il. destruct Il as (x & <- & Ix). apply (Ports x Ix). }
    destruct (remove_nodes_spec h5 W5 (sg_nodes sg) [] h5 (culled_none h5) (so_once _ _ _ SO)) as (h6 & E6 & C6).
    { intros n G. split; [cbn [h5 set_links h_nodes]; apply (op_nodes _ _ _ _ _ _ _ _ _ Op); left; now apply gone_live|]. split; [|intros []].
      cbn [h5 set_links h_entry]. rewrite (op_entry _ _ _ _ _ _ _ _ _ Op). now apply (so_children _ _ _ SO n G). }
    rewrite app_nil_r in C6.
    assert (MR : forall n, memN n (rev (sg_nodes sg)) = memN n (sg_nodes sg)).
    { intros n. destruct (memN n (sg_nodes sg)) eqn:X; [apply memN_iff; rewrite <- in_rev; now apply memN_iff|apply memN_false; rewrite <- in_rev; now apply memN_false]. }
    assert (Fleft : forall x, interior x -> memN (f x) (sg_nodes sg) = false).
    { intros x I. apply left_b. intros G. apply (op_fresh _ _ _ _ _ _ _ _ _ Op x I). now apply gone_live. }
    assert (Kgone : forall n, gone n -> h_kids h4 n = []).
    { intros n G. destruct (so_children _ _ _ SO n G) as (_ & K & _). rewrite <- K. apply (op_host _ _ _ _ _ _ _ _ _ Op n (gone_live n G)). intros ->. contradiction. }
    assert (Pleft : forall y p, h_parent h4 y = Some p -> memN p (sg_nodes sg) = false).
    { intros y p E. apply left_b. intros G. apply (wf_kids h4 (op_wf _ _ _ _ _ _ _ _ _ Op)) in E. rewrite (Kgone p G) in E. destruct E. }
    exists h6, m, f. split.
    { unfold replace_with, get_io. rewrite (ro_flow _ _ _ _ RO), Kids, EE, E1, Mi, Mo, Me, E2, E3, E4. fold m. rewrite E5, E6. reflexivity. }
    split; [|split; [apply (op_map _ _ _ _ _ _ _ _ _ Op)|]].
    - apply (culled_wf h5 h6 _ W5 C6); cbn [h5 set_links h_root h_entry h_parent].
      + rewrite <- in_rev, (op_root _ _ _ _ _ _ _ _ _ Op). intros G. destruct (so_children _ _ _ SO _ G) as (P & _). rewrite (wf_top h W) in P. discriminate.
      + rewrite <- in_rev, (op_entry _ _ _ _ _ _ _ _ _ Op). intros G. now destruct (so_children _ _ _ SO _ G) as (_ & _ & P).
      + intros c p E G. rewrite <- in_rev in G. apply (wf_kids h4 (op_wf _ _ _ _ _ _ _ _ _ Op)) in E. rewrite (Kgone p G) in E. destruct E.
    - constructor.
      + apply (op_fresh _ _ _ _ _ _ _ _ _ Op).
      + apply (op_inj _ _ _ _ _ _ _ _ _ Op).
      + intros y. rewrite (cu_nodes _ _ _ C6), filter_In, MR, negb_true_iff. cbn [h5 set_links h_nodes]. rewrite (op_nodes _ _ _ _ _ _ _ _ _ Op), left_b. split.
        * intros [[Iy|X] Ly]; [now left|now right].
        * intros [[Iy Ly]|(x & Ix & ->)]; [auto|]. split; [right; eauto|]. apply left_b. now apply Fleft.
      + intros x Ix. destruct (op_copies _ _ _ _ _ _ _ _ _ Op x Ix) as (O1 & O2 & O3 & O4 & O5 & O6). pose proof (Fleft x Ix) as Fx.
        rewrite (cu_ops _ _ _ C6), (cu_meta _ _ _ C6), (cu_in _ _ _ C6), (cu_out _ _ _ C6), (cu_kids _ _ _ C6), (cu_parent _ _ _ C6), !MR, Fx. cbn [h5 set_links h_ops h_meta h_in h_out h_kids h_parent].
        do 4 (split; [assumption|]). split.
        * rewrite O5. apply filter_all. intros c Ic. rewrite MR. apply negb_true_iff. apply in_map_iff in Ic. destruct Ic as (z & <- & Iz). apply Fleft.
          apply (interior_down repl i o Wr rest Kids x z Ix Iz).
        * rewrite <- O6. destruct (h_parent h4 (f x)) as [p|] eqn:Ep; [|reflexivity]. rewrite MR, (Pleft _ _ Ep). reflexivity.
      + intros y Iy Ly. destruct (op_host _ _ _ _ _ _ _ _ _ Op y Iy) as ((A1 & A2 & A3 & A4 & A5) & A6). pose proof (proj2 (left_b y) Ly) as Fy. split.
        * unfold same_node. rewrite (cu_ops _ _ _ C6), (cu_meta _ _ _ C6), (cu_in _ _ _ C6), (cu_out _ _ _ C6), (cu_parent _ _ _ C6), !MR, Fy. cbn [h5 set_links h_ops h_meta h_in h_out h_parent].
          do 4 (split; [assumption|]). rewrite <- A5. destruct (h_parent h4 y) as [p|] eqn:Ep; [|reflexivity]. rewrite MR, (Pleft _ _ Ep). reflexivity.
        * intros Ny. rewrite (cu_kids _ _ _ C6), MR, Fy. cbn [h5 set_links h_kids]. rewrite (A6 Ny). apply filter_all. intros c Ic. rewrite MR. apply negb_true_iff, left_b. intros G.
          destruct (so_children _ _ _ SO c G) as (P & _). apply (wf_kids h W) in Ic. congruence.
      + rewrite (cu_kids _ _ _ C6), MR, (proj2 (left_b parent) Lp). cbn [h5 set_links h_kids]. rewrite (op_kids _ _ _ _ _ _ _ _ _ Op), filter_app, Kids. cbn [skipn]. f_equal.
        * apply filter_ext. intros c. now rewrite MR.
        * apply filter_all. intros c Ic. rewrite MR. apply negb_true_iff. apply in_map_iff in Ic. destruct Ic as (z & <- & Iz). apply Fleft. apply (interior_child repl i o Wr rest Kids z Iz).
      + rewrite (cu_root _ _ _ C6). cbn [h5 set_links h_root]. apply (op_root _ _ _ _ _ _ _ _ _ Op).
      + rewrite (cu_entry _ _ _ C6). cbn [h5 set_links h_entry]. apply (op_entry _ _ _ _ _ _ _ _ _ Op).
      + destruct (op_links _ _ _ _ _ _ _ _ _ Op) as (inner & Hi & P4).
        set (stays := fun l : link => negb (memN (fst (snd l)) (sg_nodes sg))).
        set (copies := fun l : link => inner l || inb l).
        set (gh := fun l : link => if memN (fst (fst l)) (sg_nodes sg) then (place f (final (pos (fst l))), snd l) else l).
        set (gr := fun l : link => if N.eqb (fst (fst l)) i then (hsrc (snd (fst l)), place f (Repl (snd l))) else move_link f l).
        exists stays, copies, (map gh (filter stays (h_links h))), (map gr (filter copies (h_links repl))).
        assert (Hcover : forall l, In l (h_links h) -> stays l = true -> memN (fst (fst l)) (sg_nodes sg) = outb l).
        { intros l Il Hs. unfold stays in Hs. apply negb_true_iff, left_b in Hs. destruct (outb l) eqn:X; [apply memN_iff; now apply (Hout l Il)|]. apply left_b. intros G.
          pose proof (so_cover _ _ _ SO l Il G Hs) as Y. apply mem_ep_iff in Y. unfold outb in X. congruence. }
        split; [|split; [|split; [|split]]].
        * (* the links *)
          rewrite (cu_links _ _ _ C6). cbn [h5 set_links h_links]. unfold L5.
          set (ok := fun l : link => negb (memN (fst (fst l)) (sg_nodes sg) || memN (fst (snd l)) (sg_nodes sg))).
          rewrite (filter_ext _ ok) by (intros l; unfold ok; now rewrite !MR). rewrite filter_app.
          etransitivity; [apply Permutation_app; [apply InlineProofs.filter_perm; exact P4|apply InlineProofs.filter_perm, Permutation_map; exact PE]|].
          rewrite filter_app, map_app, filter_app, !map_map.
          rewrite (filter_all _ ok (map (move_link f) (filter inner (h_links repl)))).
          2:{ intros l Il. apply in_map_iff in Il. destruct Il as (l0 & <- & Il). apply filter_In in Il. destruct Il as [Il Hl]. destruct (proj1 (Hi l0 Il) Hl) as [X Y]. unfold ok, move_link. cbn [fst snd]. now rewrite (Fleft _ X), (Fleft _ Y). }
          rewrite (filter_all _ ok (map _ (filter inb (h_links repl)))).
          2:{ intros l Il. apply in_map_iff in Il. destruct Il as (l0 & <- & Il). apply filter_In in Il. destruct Il as [Il Hl]. destruct (Hin l0 Il Hl) as (X1 & X2 & X3). unfold ok, put. cbn [fst snd place]. rewrite (Fleft _ X3).
              destruct (hsrc_facts h repl sg i o parent W SO _ X2) as (P1 & _). rewrite (proj2 (left_b _) P1). reflexivity. }
          assert (Q1 : Permutation (filter ok (h_links h) ++ filter ok (map (fun x => put (via_output h repl sg i o x)) (filter outb (h_links h)))) (map gh (filter stays (h_links h)))).
          { etransitivity; [|apply Permutation_map, Permutation_sym, (filter_split _ stays outb)]. rewrite map_app. etransitivity; [|apply Permutation_app_comm]. apply Permutation_app.
            - rewrite (map_ext_in gh (fun l => l)), map_id; [apply Permutation_refl'|].
              + apply filter_in_ext. intros l Il. unfold ok. destruct (stays l) eqn:Hs.
                * rewrite (Hcover l Il Hs). unfold stays in Hs. apply negb_true_iff in Hs. rewrite Hs, orb_false_r. reflexivity.
                * unfold stays in Hs. apply negb_false_iff in Hs. rewrite Hs, orb_true_r. reflexivity.
              + intros l Il. apply filter_In in Il. destruct Il as [Il X]. apply andb_true_iff in X. destruct X as [X Y]. unfold gh. rewrite (Hcover l Il X). apply negb_true_iff in Y. now rewrite Y.
            - etransitivity; [apply Permutation_refl', InlineProofs.filter_map|]. rewrite filter_filter.
              rewrite (filter_in_ext _ _ (fun l => stays l && outb l)).
              + apply Permutation_refl'. apply map_ext_in. intros l Il. apply filter_In in Il. destruct Il as [Il X]. apply andb_true_iff in X. destruct X as [X Y]. unfold gh. rewrite (Hcover l Il X), Y. unfold put, via_output. cbn [fst snd place]. reflexivity.
              + intros l Il. destruct (outb l) eqn:X; [|now rewrite andb_false_r]. rewrite andb_true_r. cbn [andb]. unfold ok, put, via_output, stays. cbn [fst snd place].
                destruct (Hout l Il X) as (_ & X2 & _). pose proof (Hfinal _ X2) as F. destruct (final (pos (fst l))) as [s|s]; cbn [place fst]; destruct F as [F1 _].
                * now rewrite (proj2 (left_b _) F1).
                * now rewrite (Fleft _ F1). }
          assert (Q2 : Permutation (map (move_link f) (filter inner (h_links repl)) ++ map (fun x : link => put (Host (hsrc (snd (fst x))), Repl (snd x))) (filter inb (h_links repl))) (map gr (filter copies (h_links repl)))).
          { etransitivity; [|apply Permutation_map, Permutation_sym, (filter_split _ copies inner)]. rewrite map_app. apply Permutation_app; apply Permutation_refl'.
            - rewrite (filter_in_ext _ (fun l => copies l && inner l) inner) by (intros l _; unfold copies; destruct (inner l), (inb l); reflexivity).
              apply map_ext_in. intros l Il. apply filter_In in Il. destruct Il as [Il X]. apply (Hi l Il) in X. destruct X as [(_ & _ & X & _) _]. unfold gr. destruct (N.eqb_spec (fst (fst l)) i) as [Y|_]; [contradiction|reflexivity].
            - rewrite (filter_in_ext _ (fun l => copies l && negb (inner l)) inb).
              + apply map_ext_in. intros l Il. apply filter_In in Il. destruct Il as [Il X]. destruct (Hin l Il X) as (X1 & _). unfold gr. rewrite X1, N.eqb_refl. reflexivity.
              + intros l Il. unfold copies. destruct (inb l) eqn:X; [|rewrite orb_false_r; destruct (inner l); reflexivity]. rewrite orb_true_r. cbn [andb]. apply negb_true_iff, not_true_is_false. intros Y. apply (Hi l Il) in Y.
                destruct Y as [(_ & _ & Y & _) _]. destruct (Hin l Il X) as (X1 & _). contradiction. }
          etransitivity; [|apply Permutation_app; [exact Q1|exact Q2]]. rewrite <- !app_assoc. apply Permutation_app_head. rewrite !app_assoc. etransitivity; [apply Permutation_app_comm|]. rewrite <- app_assoc. apply Permutation_refl.
        * intros l _. unfold stays. rewrite negb_true_iff. apply left_b.
        * intros l Il. unfold copies. rewrite orb_true_iff, (Hi l Il). unfold inner_link, copied. split.
          -- intros [[X Y]|X]; [auto|]. destruct (Hin l Il X) as (X1 & X2 & X3). auto.
          -- intros [Y [X|[X1 X2]]]; [now left|right]. unfold inb. apply andb_true_iff. split; [apply mem_ep_iff, from_inputs_iff; auto|]. apply negb_true_iff, N.eqb_neq. apply Y.
        * apply forall2_map. intros l Il. apply filter_In in Il. destruct Il as [Il Hs]. unfold gh. rewrite (Hcover l Il Hs). destruct (outb l) eqn:X.
          -- cbn [fst snd]. split; [reflexivity|]. exists (final (pos (fst l))). split; [|reflexivity]. apply (final_provides h repl sg i o parent W Wr SO RO). now apply (Hout l Il).
          -- split; [reflexivity|]. exists (Host (fst l)). split; [|reflexivity]. apply pr_host. apply left_b. now rewrite (Hcover l Il Hs).
        * apply forall2_map. intros l Il. apply filter_In in Il. destruct Il as [Il Hc]. unfold gr, copies in *. apply orb_true_iff in Hc. destruct (N.eqb_spec (fst (fst l)) i) as [X|X].
          -- assert (Hl : inb l = true) by (destruct Hc as [Hc|Hc]; [apply (Hi l Il) in Hc; destruct Hc as [(_ & _ & Y & _) _]; contradiction|exact Hc]). destruct (Hin l Il Hl) as (X1 & X2 & X3).
             split; [reflexivity|]. exists (Host (hsrc (snd (fst l)))). split; [|reflexivity]. destruct l as [[a p] t]. cbn [fst snd] in *. subst a. now apply (hsrc_facts h repl sg i o parent W SO).
          -- destruct Hc as [Hc|Hc]; [|destruct (Hin l Il Hc) as (X1 & _); contradiction]. apply (Hi l Il) in Hc. destruct Hc as [Y _]. split; [reflexivity|].
             exists (Repl (fst l)). split; [now apply pr_repl|reflexivity].
  Qed.
End Main.
