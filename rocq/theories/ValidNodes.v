(** Proofs about the checks of nodes and their children, and of the whole graph. *)
From Coq Require Import List Bool NArith Arith Lia Relations.
From Verif Require Import TagModel TypesModel TypesProofs GraphModel GraphSpec GraphProofs GraphRemove Graphs OpModel OpSpec OpProofs
  DeadModel DeadProofs DeadFuncs ValidModel ValidSpec ValidProofs ValidEdges.
Import ListNotations.

Lemma region_flags : forall o i u, region o i u -> validity_flags o =
  {| f_children := TDataflowChild; f_first := TInput; f_second := TOutput; f_required := true; f_dag := true; f_edges := false |}.
Proof. intros o i u R. destruct R; reflexivity. Qed.

Lemma input_tag : forall o, within TInput (op_tag o) = true <-> exists r, o = OInput r.
Proof. intros o. split; [|intros (r & ->); reflexivity]. destruct o; intros E; try (vm_compute in E; discriminate). eauto. Qed.
Lemma output_tag : forall o, within TOutput (op_tag o) = true <-> exists r, o = OOutput r.
Proof. intros o. split; [|intros (r & ->); reflexivity]. destruct o; intros E; try (vm_compute in E; discriminate). eauto. Qed.
Lemma block_tag : forall o, within TDataflowBlock (op_tag o) = true <-> exists i oo rows, o = OBlock i oo rows.
Proof. intros o. split; [|intros (i & oo & rows & ->); reflexivity]. destruct o; intros E; try (vm_compute in E; discriminate). eauto. Qed.
Lemma exit_tag : forall o, within TBasicBlockExit (op_tag o) = true <-> exists r, o = OExit r.
Proof. intros o. split; [|intros (r & ->); reflexivity]. destruct o; intros E; try (vm_compute in E; discriminate). eauto. Qed.

Lemma not_boundary : forall o, negb (tag_eqb (op_tag o) TInput || tag_eqb (op_tag o) TOutput) = true <-> ~ boundary o.
Proof. intros o. destruct o; cbn; split; try discriminate; tauto. Qed.
Lemma not_exit : forall o, negb (tag_eqb (op_tag o) TBasicBlockExit) = true <-> ~ exit_op o.
Proof. intros o. destruct o; cbn; split; try discriminate; tauto. Qed.

Section Nodes.
  Context {M : Type}.
  Notation hugr := (hugr op M).
  Variable env : N -> N -> option typedef.
  Variable defs : N -> N -> opsig.
  Variable h : hugr.
  Hypothesis W : wf h.

  Lemma cases_iff : forall rows other outs kids i, length (skipn i rows) = length kids ->
    validate_cases h rows other outs i kids = VOk <->
    Forall2 (fun r c => h_ops h c = OCase (r ++ other, outs)) (skipn i rows) kids.
  Proof.
    intros rows other outs. induction kids as [|c kids IH]; intros i L.
    - cbn [validate_cases]. destruct (skipn i rows); [|discriminate]. split; [constructor|reflexivity].
    - destruct (skipn i rows) as [|r rest] eqn:E; [discriminate|].
      assert (Er : nth_error rows i = Some r).
      { clear - E. revert i E. induction rows as [|x rows IH]; intros i E; [destruct i; discriminate|]. destruct i; cbn in *; [congruence|auto]. }
      assert (Es : skipn (S i) rows = rest).
      { clear - E. revert i E. induction rows as [|x rows IH]; intros i E; [destruct i; discriminate|]. destruct i; cbn in *; [congruence|]. now apply IH. }
      cbn [validate_cases]. unfold case_input_row. rewrite Er. cbn [option_map]. cbn [length] in L.
      assert (X : Forall2 (fun r c => h_ops h c = OCase (r ++ other, outs)) (r :: rest) (c :: kids) <->
                  h_ops h c = OCase (r ++ other, outs) /\ Forall2 (fun r c => h_ops h c = OCase (r ++ other, outs)) rest kids).
      { split; [intros F; inversion F; auto|]. intros [A B]. constructor; assumption. }
      rewrite X. destruct (h_ops h c) as [| | | | | | | | | | | | | | | | | | | | |s] eqn:Ec; try (split; [discriminate|intros [A _]; discriminate]).
      rewrite vseq_ok, vcheck_ok, andb_true_iff, !row_eqb_iff, (IH (S i)), Es by (rewrite Es; lia).
      destruct s as [x y]. cbn [fst snd]. split.
      + intros [[-> ->] F]. auto.
      + intros [A F]. injection A as -> ->. auto.
  Qed.

  Lemma io_iff : forall ins outs kids, validate_io_nodes h ins outs kids = VOk <->
    exists a b rest, kids = a :: b :: rest /\ snd (sig_of (h_ops h a)) = ins /\ fst (sig_of (h_ops h b)) = outs /\
      forall c, In c rest -> ~ boundary (h_ops h c).
  Proof.
    intros ins outs [|a [|b rest]]; cbn [validate_io_nodes].
    - split; [discriminate|]. now intros (a & b & rest & E & _).
    - split; [discriminate|]. now intros (a' & b & rest & E & _).
    - rewrite !vseq_ok, !vcheck_ok, !row_eqb_iff, vall_ok. split.
      + intros (A & B & D). exists a, b, rest. repeat (split; [auto|]). intros c Ic. apply not_boundary. specialize (D c Ic). now apply vcheck_ok in D.
      + intros (a' & b' & rest' & E & A & B & D). injection E as <- <- <-. repeat (split; [assumption|]). intros c Ic. apply vcheck_ok, not_boundary. auto.
  Qed.

  Lemma region_children_iff : forall n ins outs, region (h_ops h n) ins outs ->
    validate_children h n (h_ops h n) = VOk <-> good_region h n.
  Proof.
    intros n ins outs R. unfold validate_children. rewrite (region_flags _ _ _ R). cbn [f_children f_first f_second f_required f_dag f_edges].
    assert (OC : validate_op_children h n (h_ops h n) (h_kids h n) = validate_io_nodes h ins outs (h_kids h n)).
    { destruct R; reflexivity. }
    assert (U : forall i u, region (h_ops h n) i u -> i = ins /\ u = outs).
    { intros i u R'. apply region_iff in R, R'. rewrite R in R'. injection R' as -> ->. auto. }
    unfold good_region. split.
    - intros V i u R'. destruct (U i u R') as [-> ->]. destruct (h_kids h n) as [|a ks] eqn:K; [discriminate|].
      rewrite !vseq_ok in V. destruct V as (_ & A & B & D & _ & E). apply vcheck_ok in A. rewrite OC in D. apply io_iff in D.
      destruct D as (a' & b & rest & Ek & X & Y & Z). injection Ek as <- ->. apply vcheck_ok in B.
      apply input_tag in A. destruct A as (r & A). apply output_tag in B. destruct B as (r' & B). rewrite A in X. rewrite B in Y. cbn in X, Y. subst r r'.
      split; [exists a, b, rest; auto|]. now apply dag_iff.
    - intros G. destruct (G ins outs R) as [(a & b & rest & K & A & B & D) AC]. rewrite K in OC |- *. rewrite !vseq_ok, !vcheck_ok, A, B.
      repeat (split; [reflexivity|]). split; [|split; [reflexivity|now apply dag_iff]]. rewrite OC. apply io_iff. exists a, b, rest. rewrite A, B. auto.
  Qed.

  Lemma cfg_edge_iff : forall a i b j, In ((a, i), (b, j)) (h_links h) -> validate_cfg_edge h ((a, i), (b, j)) = VOk <->
    exists x other rows r, h_ops h a = OBlock x other rows /\ nth_error rows i = Some r /\
       ((exists oo rs, h_ops h b = OBlock (r ++ other) oo rs) \/ h_ops h b = OExit (r ++ other)).
  Proof.
    intros a i b j _. unfold validate_cfg_edge. cbn [fst snd].
    assert (B : forall r, block_input (h_ops h b) = Some r <-> (exists oo rs, h_ops h b = OBlock r oo rs) \/ h_ops h b = OExit r).
    { intros r. split.
      - intros E. destruct (h_ops h b); try discriminate; cbn in E; injection E as ->; [left; eauto|now right].
      - intros [(oo & rs & ->)| ->]; reflexivity. }
    split.
    - destruct (h_ops h a) as [| | | | | | | | | | | | | | | |x other rows| | | | |] eqn:Ea; try discriminate.
      destruct (block_input (h_ops h b)) as [t|] eqn:Eb; [|discriminate]. unfold successor_input.
      destruct (nth_error rows i) as [r|] eqn:Er; [|discriminate]. cbn [option_map]. rewrite vcheck_ok, row_eqb_iff. intros <-.
      exists x, other, rows, r. split; [reflexivity|]. split; [exact Er|]. now apply B.
    - intros (x & other & rows & r & Ea & Er & Eb). rewrite Ea. apply B in Eb. rewrite Eb. unfold successor_input. rewrite Er. cbn [option_map].
      apply vcheck_ok, row_eqb_iff. reflexivity.
  Qed.

  Lemma in_from : forall n l, In l (from_node h n) <-> In l (h_links h) /\ fst (fst l) = n.
  Proof. intros n l. unfold from_node. rewrite filter_In, N.eqb_eq. reflexivity. Qed.

  Lemma cfg_children_iff : forall n ins outs, h_ops h n = OCfg (ins, outs) ->
    validate_children h n (h_ops h n) = VOk <-> good_cfg h n.
  Proof.
    intros n ins outs O. unfold validate_children. rewrite O. cbn [validity_flags f_children f_first f_second f_required f_dag f_edges validate_op_children].
    assert (X : vall (fun c => vall (fun l => match get_parent h (fst (snd l)) with
                                             | Some p => if N.eqb p n then validate_cfg_edge h l else VOk
                                             | None => VOk
                                             end) (from_node h c)) (h_kids h n) = VOk <->
      (forall a b i j, h_parent h a = Some n -> h_parent h b = Some n -> In ((a, i), (b, j)) (h_links h) ->
       exists x other rows r, h_ops h a = OBlock x other rows /\ nth_error rows i = Some r /\
         ((exists oo rs, h_ops h b = OBlock (r ++ other) oo rs) \/ h_ops h b = OExit (r ++ other)))).
    { rewrite vall_ok. split.
      - intros V a b i j Pa Pb I. apply (wf_kids h W) in Pa. specialize (V a Pa). rewrite vall_ok in V.
        specialize (V ((a, i), (b, j))). cbn [fst snd] in V. rewrite (get_parent_eq h W), Pb, N.eqb_refl in V. apply (cfg_edge_iff a i b j I).
        apply V. apply in_from. auto.
      - intros V a Ia. apply (wf_kids h W) in Ia. rewrite vall_ok. intros [[a' i] [b j]] I. apply in_from in I. cbn [fst snd] in *. destruct I as [I ->].
        rewrite (get_parent_eq h W). destruct (h_parent h b) as [p|] eqn:Pb; [|reflexivity]. destruct (N.eqb_spec p n) as [->|]; [|reflexivity].
        apply (cfg_edge_iff a i b j I). eauto. }
    unfold good_cfg. split.
    - intros V i u E. assert (i = ins /\ u = outs) as [-> ->] by (rewrite O in E; injection E; auto). clear E.
      destruct (h_kids h n) as [|a [|b rest]] eqn:K; [discriminate| |].
      + rewrite !vseq_ok in V. destruct V as (_ & _ & _ & D & _). discriminate.
      + rewrite !vseq_ok in V. destruct V as (_ & _ & _ & D & E & _). pose proof (proj1 X E) as E2. clear E. split; [|exact E2].
        cbn [validate_cfg_children fst snd] in D. destruct (h_ops h a) as [| | | | | | | | | | | | | | | |x other rows| | | | |] eqn:Ea; try discriminate.
        destruct (h_ops h b) as [| | | | | | | | | | | | | | | | |y| | | |] eqn:Eb; try discriminate.
        rewrite !vseq_ok, !vcheck_ok, !row_eqb_iff, vall_ok in D. destruct D as (-> & -> & D).
        exists a, b, rest. split; [reflexivity|]. split; [eauto|]. split; [exact Eb|]. intros c Ic. specialize (D c Ic). apply vcheck_ok in D. now apply not_exit.
    - intros G. destruct (G ins outs O) as [(a & b & rest & K & (oo & rows & A) & B & D) E]. rewrite K in X |- *. rewrite !vseq_ok, !vcheck_ok, A, B.
      repeat (split; [reflexivity|]). split.
      + cbn [validate_cfg_children fst snd]. rewrite A, B, !vseq_ok, !vcheck_ok, !row_eqb_iff, vall_ok. repeat (split; [reflexivity|]).
        intros c Ic. apply vcheck_ok, not_exit. auto.
      + split; [|reflexivity]. apply (proj2 X). exact E.
  Qed.

  Lemma conditional_children_iff : forall n rows other outs, h_ops h n = OConditional rows other outs ->
    validate_children h n (h_ops h n) = VOk <-> good_conditional h n.
  Proof.
    intros n rows other outs O. unfold validate_children. rewrite O. cbn [validity_flags f_children f_first f_second f_required f_dag f_edges validate_op_children].
    unfold good_conditional. split.
    - intros V r x y E. rewrite O in E. injection E as <- <- <-. destruct (h_kids h n) as [|a ks] eqn:K; [discriminate|].
      rewrite !vseq_ok in V. destruct V as (_ & _ & _ & (D & V) & _). apply vcheck_ok, Nat.eqb_eq in D. apply (cases_iff rows other outs (a :: ks) 0) in V; [|exact D].
      split; [intros ->; discriminate|exact V].
    - intros G. destruct (G rows other outs O) as [Nr F].
      assert (L : length rows = length (h_kids h n)) by (clear - F; induction F; cbn; congruence).
      destruct (h_kids h n) as [|a ks] eqn:K; [destruct rows; [congruence|discriminate]|]. rewrite !vseq_ok, !vcheck_ok.
      split; [reflexivity|]. assert (T : forall o, within TAny (op_tag o) = true) by (intros []; reflexivity).
      split; [apply T|]. split; [destruct ks; [reflexivity|apply vcheck_ok, T]|]. split; [|auto].
      split; [now apply Nat.eqb_eq|]. apply (cases_iff rows other outs (a :: ks) 0); [exact L|exact F].
  Qed.

  (** Given that every child is allowed, the checks of the children are those of the three kinds of containers. *)
  Lemma children_ok_iff : forall n, (forall c, h_parent h c = Some n -> allowed (h_ops h n) (h_ops h c)) ->
    validate_children h n (h_ops h n) = VOk <-> good_region h n /\ good_conditional h n /\ good_cfg h n.
  Proof.
    intros n T. destruct (inner_signature (h_ops h n)) as [[ins outs]|] eqn:R.
    - apply region_iff in R. rewrite (region_children_iff n ins outs R). split; [|tauto]. intros G. split; [exact G|].
      split; [intros rows other out O|intros i u O]; rewrite O in R; inversion R.
    - assert (G : good_region h n) by (intros i u X; apply region_iff in X; congruence).
      destruct (h_ops h n) eqn:O; try discriminate R.
      all: try match goal with |- context [OConditional ?a ?b ?c] => idtac | |- context [OCfg ?s] => idtac | |- context [OModule] => idtac
        | _ => assert (K : h_kids h n = []) by (destruct (h_kids h n) as [|c ks] eqn:K; [reflexivity|]; exfalso;
            assert (P : h_parent h c = Some n) by (apply (wf_kids h W); rewrite K; now left); specialize (T c P); inversion T; try congruence;
            match goal with X : region _ _ _ |- _ => inversion X end);
          unfold validate_children; rewrite K; cbn [validity_flags f_required vcheck negb];
          split; [intros _|reflexivity]; split; [exact G|]; split; [intros rr oo uu E|intros ii uu E]; congruence end.
      + split; [intros _|].
        * split; [exact G|]. split; [intros rr oo uu E|intros ii uu E]; congruence.
        * intros _. unfold validate_children. cbn [validity_flags f_required f_children f_first f_second f_edges f_dag].
          assert (A : forall o, within TAny (op_tag o) = true) by (intros []; reflexivity).
          destruct (h_kids h n) as [|c ks]; [reflexivity|]. rewrite A. destruct ks; [reflexivity|]. rewrite A. reflexivity.
      + destruct s as [ins outs]. rewrite <- O. rewrite (cfg_children_iff n ins outs O). split; [|tauto]. intros X. split; [exact G|]. split; [|exact X].
        intros rr oo uu E. congruence.
      + rewrite <- O. rewrite (conditional_children_iff n _ _ _ O). split; [|tauto]. intros X. split; [exact G|]. split; [exact X|].
        intros ii uu E. congruence.
  Qed.

  (** ** Nodes *)
  Definition node_ok (n : N) : Prop :=
    (forall e m a s, h_ops h n <> OOpaque e m a s) /\ tag_in_range (h_ops h n) = true /\
    h_in h n = port_count (h_ops h n) Inc /\ h_out h n = port_count (h_ops h n) Out /\
    (n <> h_root h -> exists p, h_parent h n = Some p /\ allowed (h_ops h p) (h_ops h n)) /\
    (n = h_entry h -> container (h_ops h n)) /\
    validate_children h n (h_ops h n) = VOk /\
    (forall v t ok, h_ops h n = OConst v t ok -> ok = true).

  Lemma validate_node_iff : forall n, validate_node h n = VOk <-> node_ok n.
  Proof.
    intros n. unfold validate_node, node_ok. rewrite !vseq_ok, !vcheck_ok, !Nat.eqb_eq, (get_parent_eq h W).
    assert (A : (match h_ops h n with OOpaque _ _ _ _ => VErr (UnresolvedOp n) | _ => VOk end) = VOk <-> forall e m a s, h_ops h n <> OOpaque e m a s).
    { destruct (h_ops h n); split; try reflexivity; try (intros; discriminate). intros X. now specialize (X ext name args s). }
    assert (B : (if tag_in_range (h_ops h n) then VOk else VPanic) = VOk <-> tag_in_range (h_ops h n) = true) by (destruct (tag_in_range (h_ops h n)); split; congruence).
    assert (D : (if N.eqb n (h_root h) then VOk else match h_parent h n with
                | None => VErr (NoParent n)
                | Some p => vcheck (within (f_children (validity_flags (h_ops h p))) (op_tag (h_ops h n))) (InvalidParentOp n p)
                end) = VOk <-> (n <> h_root h -> exists p, h_parent h n = Some p /\ allowed (h_ops h p) (h_ops h n))).
    { destruct (N.eqb_spec n (h_root h)) as [->|Ne]; [split; [intros _ X; congruence|reflexivity]|]. destruct (h_parent h n) as [p|].
      - rewrite vcheck_ok, children_iff. split; [intros X _; eauto|]. intros X. destruct (X Ne) as (q & E & Y). now injection E as <-.
      - split; [discriminate|]. intros X. now destruct (X Ne) as (q & E & _). }
    assert (E : (if N.eqb n (h_entry h) then vcheck (negb (tag_eqb (f_children (validity_flags (h_ops h n))) TNone)) (EntrypointNotContainer n) else VOk) = VOk
                <-> (n = h_entry h -> container (h_ops h n))).
    { destruct (N.eqb_spec n (h_entry h)) as [Eq|Ne]; [rewrite vcheck_ok, container_iff; tauto|]. split; [contradiction|reflexivity]. }
    assert (F : (match h_ops h n with OConst _ _ ok => vcheck ok (ConstTypeError n) | _ => VOk end) = VOk <-> (forall v t ok, h_ops h n = OConst v t ok -> ok = true)).
    { destruct (h_ops h n); try (split; [intros _ v' t' ok' X; discriminate|reflexivity]). rewrite vcheck_ok. split; [intros -> v' t' ok' X; now injection X|].
      intros X. eapply X. reflexivity. }
    rewrite A, B, D, E, F. tauto.
  Qed.

  Lemma insert_sorted_in : forall x n l, In x (insert_sorted n l) <-> x = n \/ In x l.
  Proof.
    intros x n. induction l as [|m l IH]; [cbn; intuition|]. cbn [insert_sorted]. destruct (N.leb n m); cbn [In]; [intuition|]. rewrite IH. intuition.
  Qed.

  Lemma node_order_in : forall x, In x (node_order h) <-> In x (h_nodes h).
  Proof.
    intros x. unfold node_order. induction (h_nodes h) as [|m l IH]; [reflexivity|]. cbn [fold_right In]. rewrite insert_sorted_in, IH. intuition.
  Qed.

  (** ** Linkage *)
  Definition exports_ok (seen : list (N * (N * poly * bool))) (kids : list N) : Prop :=
    (forall c name g q, In c kids -> exported (h_ops h c) = Some (name, g, q) -> forall x f p, In (name, (x, f, p)) seen -> f = g /\ p = false /\ q = false) /\
    (forall a b name f g p q, before kids a b -> exported (h_ops h a) = Some (name, f, p) -> exported (h_ops h b) = Some (name, g, q) ->
       f = g /\ p = false /\ q = false).

  Lemma exports_iff : forall kids seen, NoDup (map fst seen) -> validate_exports h seen kids = VOk <-> exports_ok seen kids.
  Proof.
    induction kids as [|c kids IH]; intros seen ND.
    - cbn [validate_exports]. split; [intros _|reflexivity]. split; [intros c name g q []|].
      intros a b name f g p q (l1 & l2 & l3 & E). destruct l1; discriminate.
    - cbn [validate_exports]. destruct (exported (h_ops h c)) as [[[name f] p]|] eqn:Ec.
      + destruct (find (fun x => N.eqb (fst x) name) seen) as [[name' [[x g] q]]|] eqn:Ef.
        * apply find_some in Ef. destruct Ef as [If Ef]. cbn in Ef. apply N.eqb_eq in Ef. subst name'.
          assert (Uq : forall y, In (name, y) seen -> y = (x, g, q)).
          { intros y Iy. clear - ND If Iy. induction seen as [|[k v] seen IHs]; [destruct If|]. cbn in ND. inversion ND as [|? ? N1 N2]; subst.
            destruct If as [E|If], Iy as [F|Iy]; try (congruence).
            - injection E as -> ->. exfalso. apply N1. apply in_map_iff. exists (name, y). auto.
            - injection F as -> ->. exfalso. apply N1. apply in_map_iff. exists (name, (x, g, q)). auto.
            - now apply IHs. }
          destruct (negb (poly_eqb g f) || p || q) eqn:B.
          -- split; [discriminate|]. intros [A _]. specialize (A c name f p (or_introl eq_refl) Ec x g q If). destruct A as (-> & -> & ->).
             rewrite (proj2 (poly_eqb_iff f f) eq_refl) in B. discriminate.
          -- apply orb_false_iff in B. destruct B as [B ->]. apply orb_false_iff in B. destruct B as [B ->]. apply negb_false_iff, poly_eqb_iff in B. subst g.
             rewrite (IH seen ND). unfold exports_ok. split.
             ++ intros [A D]. split.
                ** intros c' nm g' q' [<-|Ic] Ee y f' p' Iy; [|eapply A; eassumption]. rewrite Ec in Ee. injection Ee as <- <- <-. apply Uq in Iy. injection Iy as -> -> ->. auto.
                ** intros a b nm f' g' p' q' Bf Ea Eb. apply before_cons_inv in Bf. destruct Bf as [[-> Ib]|Bf]; [|eapply D; eassumption].
                   rewrite Ec in Ea. injection Ea as <- <- <-. eapply A; [exact Ib|exact Eb|exact If].
             ++ intros [A D]. split; [intros c' nm g' q' Ic; apply A; now right|]. intros a b nm f' g' p' q' Bf. apply D. now apply before_cons.
        * assert (Nn : forall y, ~ In (name, y) seen).
          { intros y Iy. pose proof (find_none _ _ Ef _ Iy) as X. cbn in X. now rewrite N.eqb_refl in X. }
          rewrite (IH ((name, (c, f, p)) :: seen)). 2:{ cbn. constructor; [|exact ND]. intros I. apply in_map_iff in I. destruct I as ([k v] & E & I). cbn in E. subst. now apply Nn in I. }
          unfold exports_ok. split.
          -- intros [A D]. split.
             ++ intros c' nm g' q' [<-|Ic] Ee y f' p' Iy; [rewrite Ec in Ee; injection Ee as <- <- <-; now apply Nn in Iy|]. eapply A; [exact Ic|exact Ee|]. right. exact Iy.
             ++ intros a b nm f' g' p' q' Bf Ea Eb. apply before_cons_inv in Bf. destruct Bf as [[-> Ib]|Bf]; [|eapply D; eassumption].
                rewrite Ec in Ea. injection Ea as <- <- <-. eapply A; [exact Ib|exact Eb|]. now left.
          -- intros [A D]. split.
             ++ intros c' nm g' q' Ic Ee y f' p' [E|Iy]; [|eapply A; [right; exact Ic|exact Ee|exact Iy]]. injection E as <- <- <- <-.
                eapply D; [apply before_head; exact Ic|exact Ec|exact Ee].
             ++ intros a b nm f' g' p' q' Bf. apply D. now apply before_cons.
      + rewrite (IH seen ND). unfold exports_ok. split.
        * intros [A D]. split.
          -- intros c' nm g' q' [<-|Ic] Ee; [congruence|]. eapply A; eassumption.
          -- intros a b nm f' g' p' q' Bf Ea Eb. apply before_cons_inv in Bf. destruct Bf as [[-> Ib]|Bf]; [congruence|]. eapply D; eassumption.
        * intros [A D]. split; [intros c' nm g' q' Ic; apply A; now right|]. intros a b nm f' g' p' q' Bf. apply D. now apply before_cons.
  Qed.

  Lemma linkage_iff : validate_linkage h = VOk <-> linkage_ok h.
  Proof.
    unfold validate_linkage. rewrite exports_iff by constructor. unfold exports_ok, linkage_ok. split; [intros [_ A]; exact A|].
    intros A. split; [|exact A]. intros c name g q _ _ x f p [].
  Qed.

  (** ** The whole graph *)
  Theorem validate_iff : validate env defs h = VOk <-> valid env defs h.
  Proof.
    unfold validate. rewrite !vseq_ok, vcheck_ok, linkage_iff, (get_parent_eq h W), (wf_top h W), vall_ok.
    assert (X : (forall x, In x (node_order h) -> validate_node h x = VOk) <-> forall n, In n (h_nodes h) -> node_ok n).
    { split; intros A n I.
      - apply validate_node_iff, A. now apply node_order_in.
      - apply validate_node_iff, A. now apply node_order_in. }
    rewrite X. clear X.
    assert (Rt : forall m, below h m (h_root h) -> In m (h_nodes h)).
    { intros m U. destruct (in_dec N.eq_dec m (h_nodes h)) as [I|Nm]; [exact I|]. destruct (wf_unused h W m Nm) as [E _].
      destruct (up_split h m _ U) as [->|(q & Q & _)]; [apply (wf_root h W)|congruence]. }
    split.
    - intros (_ & A & S & L).
      assert (C : counted h) by (intros n I; destruct (A n I) as (_ & T & B & D & _); auto).
      assert (Tr : forall n p, h_parent h n = Some p -> allowed (h_ops h p) (h_ops h n)).
      { intros n p P. destruct (wf_parent_live h W n p P) as (I & _ & Nr). destruct (A n I) as (_ & _ & _ & _ & B & _). destruct (B Nr) as (q & Q & Al). congruence. }
      assert (Fu : forall m k, In m (h_nodes h) -> hops (h_parent h) k m = Some (h_root h) -> k < length (h_nodes h)).
      { intros m k I E. exact (hops_bound (h_parent h) (h_root h) (h_nodes h) (wf_top h W) (wf_parent h W) m I (wf_reach h W m I) k _ E). }
      pose proof (proj1 (validate_subtree_iff env defs h W C _ _ [] (wf_root h W) (scope_root h) Fu) S) as S'. clear S.
      assert (Ch : forall n ds, In n (h_nodes h) -> scope h n ds -> checked env defs h ds n).
      { intros n ds I Sc. apply S'; [|exact Sc]. now apply (wf_reach h W). }
      constructor.
      + now apply counted_iff.
      + exact Tr.
      + destruct (A _ (wf_entry h W)) as (_ & _ & _ & _ & _ & E & _). now apply E.
      + intros n I. destruct (A n I) as (_ & _ & _ & _ & _ & _ & V & _). apply children_ok_iff in V; [tauto|]. intros c. apply Tr.
      + intros n I. destruct (A n I) as (_ & _ & _ & _ & _ & _ & V & _). apply children_ok_iff in V; [tauto|]. intros c. apply Tr.
      + intros n I. destruct (A n I) as (_ & _ & _ & _ & _ & _ & V & _). apply children_ok_iff in V; [tauto|]. intros c. apply Tr.
      + intros n i k I K. destruct (scope_exists h W n I) as (ds & Sc). destruct (Ch n ds I Sc) as (_ & B & _). now apply B.
      + intros n i k I K Lk. destruct (scope_exists h W n I) as (ds & Sc). destruct (Ch n ds I Sc) as (_ & _ & B). now apply (B i k K).
      + intros s i d j I. destruct (wf_links h W _ I) as [[Is Ls] [Id Ld]]. cbn in Is, Ls, Id, Ld.
        destruct (scope_exists h W s Is) as (ds & Sc). destruct (Ch s ds Is Sc) as (_ & _ & B).
        destruct (kind_exists h C s Out i Is Ls) as (k & K). exists k.
        assert (Ks : kind_at h s Out i k) by (apply (kind_at_iff h C s Out i k Is); auto).
        split; [exact Ks|]. destruct (B i k Ks) as (_ & _ & B'). destruct (B' d j I) as [Kd Lo]. split; [|exact Lo].
        apply (kind_at_iff h C d Inc j k Id). auto.
      + intros n ds I Sc. destruct (Ch n ds I Sc) as (B & _ & D). destruct (A n I) as (_ & _ & _ & _ & _ & _ & _ & Co). split.
        * unfold vop_ok in B. destruct (h_ops h n); try exact B. cbn. eapply Co. reflexivity.
        * intros i k K. now apply (D i k K).
      + exact L.
    - intros V. assert (C : counted h) by (apply counted_iff; apply V). split; [reflexivity|]. split.
      { intros n I. destruct (scope_exists h W n I) as (ds & Sc). destruct (v_types _ _ _ V n ds I Sc) as [Ok _]. destruct (C n I) as (T & A & B).
        repeat (split; [first [assumption|idtac]|]).
        - intros e m a s E. rewrite E in Ok. exact Ok.
        - intros Nr. destruct (wf_parent h W n I Nr) as (p & P & _). exists p. split; [exact P|]. now apply (v_tree _ _ _ V).
        - intros ->. apply (v_entry _ _ _ V).
        - apply children_ok_iff; [intros c; apply (v_tree _ _ _ V)|]. split; [now apply (v_region _ _ _ V)|]. split; [now apply (v_conditional _ _ _ V)|now apply (v_cfg _ _ _ V)].
        - intros v t ok E. rewrite E in Ok. exact Ok. }
      split; [|apply (v_linkage _ _ _ V)].
      apply (validate_subtree_iff env defs h W C); [apply (wf_root h W)|constructor| |].
      { intros m k I E. exact (hops_bound (h_parent h) (h_root h) (h_nodes h) (wf_top h W) (wf_parent h W) m I (wf_reach h W m I) k _ E). }
      intros m ds U Sc. assert (I : In m (h_nodes h)) by now apply Rt.
      destruct (v_types _ _ _ V m ds I Sc) as [Ok Ty]. split.
      { unfold vop_ok. destruct (h_ops h m); try exact Ok. exact Logic.I. }
      split; [intros i k K; now apply (v_inputs _ _ _ V)|]. intros i k K.
      split; [intros Lk; now apply (v_outputs _ _ _ V m i k)|]. split; [now apply (Ty i k)|].
      intros b j Ib. destruct (v_links _ _ _ V m i b j Ib) as (k' & Ks & Kd & Lo). destruct (wf_links h W _ Ib) as [_ [Lb _]].
      apply (kind_at_iff h C m Out i k I) in K. apply (kind_at_iff h C m Out i k' I) in Ks. apply (kind_at_iff h C b Inc j k' Lb) in Kd.
      assert (k' = k) by (destruct K, Ks; congruence). subst. split; [apply Kd|exact Lo].
  Qed.
End Nodes.
