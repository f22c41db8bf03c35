(** The inlining of a call does not change what functions compute. *)
From Coq Require Import List Bool NArith Arith Lia.
From Verif Require Import PValModel TypesModel GraphModel GraphSpec PValSpec GraphProofs GraphRemove GraphBfs OpModel OpSpec DeadModel DeadSpec InlineModel InsertModel InsertSpec ReplaceModel ValidSpec FlowModel FlowSpec EmitSpec EmitGraph MirrorProofs CullProofs RenameProofs IncallModel IncallSpec IncallFacts.
Import ListNotations.
Local Notation wf := GraphSpec.wf.

Section Sim.
  Context {W V E F M : Type}.
  Notation conc := (conc W N unit).
  Notation hugr := (hugr op M).
  Notation frame := (@frame W).
  Notation stack := (@stack W).
  Variable sem : @semantics W E F.
  Variable ctx : @context V E F.
  Variable A B : hugr.
  Variables f c nm : N.
  Variable sg : poly.
  Variable pub : bool.
  Variable phi : N -> N.
  Hypothesis WA : wf A.
  Hypothesis WB : wf B.
  Hypothesis CI : call_inlined A f c sg phi B.
  Hypothesis T : tidy A.
  Hypothesis Hc : In c (h_nodes A).
  Hypothesis Hf : In f (h_nodes A).
  Hypothesis Oc : h_ops A c = OCall sg [] (p_ins sg, p_outs sg).
  Hypothesis Sc : DeadModel.static_source A c = Some f.
  Hypothesis Of : h_ops A f = OFuncDefn nm sg pub.
  Hypothesis Kc : h_kids A c = [].
  Hypothesis Hcf : ~ up (h_parent A) c f.
  (** The sources of static edges. *)
  Hypothesis Hcallee : forall n g a i x, h_ops A n = OCall g a i -> DeadModel.static_source A n = Some x -> is_function (h_ops A x).
  Hypothesis Hloadf : forall n g a i e, h_ops A n = OLoadFunction g a i -> single_linked_output A n 0 = Some e -> is_function (h_ops A (fst e)).
  Hypothesis Hloadc : forall n t e, h_ops A n = OLoadConstant t -> single_linked_output A n 0 = Some e -> exists v u ok, h_ops A (fst e) = OConst v u ok.
  Hypothesis Hdecl : forall g n s p, h_ops A g = OFuncDecl n s p -> h_ops B g = OFuncDecl n s p.
  (** The copy of an operation does the same. *)
  Hypothesis Huni : forall x ins outs, inner A f x -> op_sem sem x ins outs -> op_sem sem (phi x) ins outs.

  Notation D := (inner A f).
  Definition K1 (n : N) : Prop := In n (h_nodes A) /\ n <> c.

  Lemma D_dec x : D x \/ ~ D x.
  Proof.
    destruct (descendants_spec A WA f Hf) as (_ & _ & I). destruct (in_dec N.eq_dec x (descendants A f)) as [J|J]; [|right; intros [U _]; apply J, I; exact U].
    destruct (N.eq_dec x f) as [->|Ne]; [right; intros [_ X]; contradiction|left; split; [apply I; exact J|exact Ne]].
  Qed.
  Lemma D_live x : D x -> In x (h_nodes A).
  Proof. intros [U Ne]. inversion U as [|? p ? P _]; subst; [contradiction|]. exact (proj1 (wf_parent_live A WA x p P)). Qed.
  Lemma D_c : ~ D c.
  Proof. intros [U _]. exact (Hcf U). Qed.
  Lemma D_f : ~ D f.
  Proof. intros [_ X]. contradiction. Qed.
  Lemma D_kid p x : h_parent A x = Some p -> p = f \/ D p -> D x.
  Proof.
    intros P Hp. split.
    - eapply up_next; [exact P|]. destruct Hp as [->|[U _]]; [constructor|exact U].
    - intros ->. destruct Hp as [->|[U _]]; [|exact (no_cycle A WA f p P U)]. exact (no_cycle A WA f f P (up_here _ _)).
  Qed.
  Lemma D_parent x p : D x -> h_parent A x = Some p -> p = f \/ D p.
  Proof.
    intros [U Ne] P. inversion U as [|? q ? Q Uq]; subst; [contradiction|]. rewrite P in Q. injection Q as <-. destruct (N.eq_dec p f) as [->|Np]; [left; reflexivity|right; split; assumption].
  Qed.
  Lemma f_not_root : f <> h_root A.
  Proof. intros X. apply Hcf. rewrite X. exact (wf_reach A WA c Hc). Qed.
  Lemma D_fun x : is_function (h_ops A x) -> ~ D x.
  Proof.
    intros Hx Dx. pose proof Dx as [U Ne]. inversion U as [|? p ? P Up]; subst; [contradiction|]. rewrite (t_fun _ T x p P Hx) in Up. apply (up_root A WA) in Up. exact (f_not_root Up).
  Qed.
  Lemma phi_old x : D x -> ~ In (phi x) (h_nodes A).
  Proof. apply (ci_fresh _ _ _ _ _ _ CI). Qed.
  Lemma phi_ne x y : D x -> In y (h_nodes A) -> y <> phi x.
  Proof. intros Dx Iy ->. exact (phi_old x Dx Iy). Qed.

  Lemma nodes_old y : In y (h_nodes A) -> In y (h_nodes B).
  Proof. intros Iy. apply (ci_nodes _ _ _ _ _ _ CI). left. exact Iy. Qed.
  Lemma nodes_new x : D x -> In (phi x) (h_nodes B).
  Proof. intros Dx. apply (ci_nodes _ _ _ _ _ _ CI). right. exists x. auto. Qed.
  Lemma parent_old y : In y (h_nodes A) -> h_parent B y = h_parent A y.
  Proof. intros Iy. destruct (N.eq_dec y c) as [->|Ne]; [apply (ci_call _ _ _ _ _ _ CI)|apply (ci_old _ _ _ _ _ _ CI y Iy Ne)]. Qed.
  Lemma ops_old y : K1 y -> h_ops B y = h_ops A y.
  Proof. intros [Iy Ne]. apply (ci_old _ _ _ _ _ _ CI y Iy Ne). Qed.
  Lemma kids_old y : K1 y -> h_kids B y = h_kids A y.
  Proof. intros [Iy Ne]. apply (ci_old _ _ _ _ _ _ CI y Iy Ne). Qed.
  Lemma ops_new x : D x -> h_ops B (phi x) = h_ops A x.
  Proof. intros Dx. apply (ci_new _ _ _ _ _ _ CI x Dx). Qed.
  Lemma kids_new x : D x -> h_kids B (phi x) = map phi (h_kids A x).
  Proof. intros Dx. apply (ci_new _ _ _ _ _ _ CI x Dx). Qed.
  Lemma outs_old y i : K1 y -> linked_outputs B y i = linked_outputs A y i.
  Proof. intros [Iy Ne]. unfold linked_outputs. pose proof (ci_in_old _ _ _ _ _ _ CI y i Iy Ne) as X. unfold in_links in X. rewrite X. reflexivity. Qed.
  Lemma outs_call i : i < length (p_ins sg) -> linked_outputs B c i = linked_outputs A c i.
  Proof. intros Li. unfold linked_outputs. pose proof (ci_in_call _ _ _ _ _ _ CI i Li) as X. unfold in_links in X. rewrite X. reflexivity. Qed.
  Lemma outs_new x i : D x -> linked_outputs B (phi x) i = map (fun e => (phi (fst e), snd e)) (linked_outputs A x i).
  Proof. intros Dx. unfold linked_outputs. pose proof (ci_in_new _ _ _ _ _ _ CI x i Dx) as X. unfold in_links in X. rewrite X, !map_map. apply map_ext. intros [[s a] [d j]]. reflexivity. Qed.
  Lemma outs_live y i e : In e (linked_outputs A y i) -> In (fst e) (h_nodes A).
  Proof. unfold linked_outputs. intros I. apply in_map_iff in I. destruct I as (l & <- & I). apply filter_In in I. apply (wf_links A WA l (proj1 I)). Qed.
  Lemma slo_old y i : K1 y -> single_linked_output B y i = single_linked_output A y i.
  Proof. intros Ky. unfold single_linked_output. rewrite (outs_old y i Ky). reflexivity. Qed.
  Lemma slo_new x i : D x -> single_linked_output B (phi x) i = option_map (fun e => (phi (fst e), snd e)) (single_linked_output A x i).
  Proof. intros Dx. unfold single_linked_output. rewrite (outs_new x i Dx). destruct (linked_outputs A x i) as [|e [|e' l]]; reflexivity. Qed.
  Lemma slo_live y i e : single_linked_output A y i = Some e -> In (fst e) (h_nodes A).
  Proof. unfold single_linked_output. intros H. apply (outs_live y i). destruct (linked_outputs A y i) as [|e' [|]]; try discriminate. injection H as ->. left. reflexivity. Qed.
  Lemma link_old b k t j : K1 t -> In (t, j) (linked_inputs A b k) -> In (t, j) (linked_inputs B b k).
  Proof.
    intros Kt. unfold linked_inputs. rewrite !in_map_iff. intros (l & E1 & I). apply filter_In in I. destruct I as [I Q]. exists l. split; [exact E1|]. apply filter_In. split; [|exact Q].
    assert (J : In l (in_links A (t, j))) by (apply filter_In; split; [exact I|apply ep_eqb_iff; exact E1]). rewrite <- (ci_in_old _ _ _ _ _ _ CI t j (proj1 Kt) (proj2 Kt)) in J. apply filter_In in J. exact (proj1 J).
  Qed.
  Lemma link_new b k t j : D t -> In (t, j) (linked_inputs A b k) -> In (phi t, j) (linked_inputs B (phi b) k).
  Proof.
    intros Dt. unfold linked_inputs. rewrite !in_map_iff. intros (l & E1 & I). apply filter_In in I. destruct I as [I Q]. apply ep_eqb_iff in Q. exists (move_link phi l). destruct l as [[s a] [d y]]. cbn [fst snd] in *. injection Q as -> ->. injection E1 as -> ->.
    split; [reflexivity|]. apply filter_In. split; [|apply ep_eqb_iff; reflexivity]. assert (J : In ((b, k), (t, j)) (in_links A (t, j))) by (apply filter_In; split; [exact I|apply ep_eqb_iff; reflexivity]).
    apply (in_map (move_link phi)) in J. rewrite <- (ci_in_new _ _ _ _ _ _ CI t j Dt) in J. apply filter_In in J. exact (proj1 J).
  Qed.

  (** *** Ancestors *)
  Lemma up_old y p : In y (h_nodes A) -> up (h_parent B) y p <-> up (h_parent A) y p.
  Proof.
    intros Iy. split; intros U.
    - revert Iy. induction U as [y|y q p Q U IH]; intros Iy; [constructor|]. rewrite (parent_old y Iy) in Q. eapply up_next; [exact Q|]. apply IH. apply (wf_parent_live A WA y q Q).
    - revert Iy. induction U as [y|y q p Q U IH]; intros Iy; [constructor|]. eapply up_next; [rewrite (parent_old y Iy); exact Q|]. apply IH. apply (wf_parent_live A WA y q Q).
  Qed.
  Lemma D_has_parent x : D x -> exists p, h_parent A x = Some p.
  Proof. intros [U Ne]. inversion U as [|? p ? P _]; subst; [contradiction|]. exists p. exact P. Qed.
  Lemma parent_new x p : D x -> h_parent A x = Some p -> h_parent B (phi x) = Some (if N.eqb p f then c else phi p).
  Proof. apply (ci_parent _ _ _ _ _ _ CI). Qed.
  Lemma up_new x p : D x -> D p -> up (h_parent B) (phi x) (phi p) <-> up (h_parent A) x p.
  Proof.
    intros Dx Dp. split; intros U.
    - remember (phi x) as y eqn:Ey. remember (phi p) as q eqn:Eq. revert x Dx Ey. induction U as [y|y z q Z U IH]; intros x Dx Ey.
      + rewrite (ci_inj _ _ _ _ _ _ CI x p Dx Dp); [constructor|congruence].
      + subst y q. destruct (D_has_parent x Dx) as (r & P). rewrite (parent_new x r Dx P) in Z. injection Z as <-. destruct (N.eqb_spec r f) as [Er|Nr].
        * exfalso. apply (up_old c _ Hc) in U. apply (phi_old p Dp). exact (up_live A WA _ _ U Hc).
        * destruct (D_parent x r Dx P) as [X|Dr]; [contradiction|]. eapply up_next; [exact P|]. exact (IH eq_refl r Dr eq_refl).
    - revert Dx. induction U as [x|x q p Q U IH]; intros Dx; [constructor|]. eapply up_next; [exact (parent_new x q Dx Q)|]. destruct (N.eqb_spec q f) as [->|Nq].
      + exfalso. destruct Dp as [Up Np]. exact (Np (eq_sym (up_antisym A WA _ _ U Up))).
      + destruct (D_parent x q Dx Q) as [X|Dq]; [contradiction|]. exact (IH Dp Dq).
  Qed.
  Lemma up_mixed x p : D x -> In p (h_nodes A) -> up (h_parent B) (phi x) p <-> up (h_parent A) c p.
  Proof.
    intros Dx Ip. split; intros U.
    - remember (phi x) as y eqn:Ey. revert x Dx Ey. induction U as [y|y z q Z U IH]; intros x Dx Ey.
      + exfalso. subst y. exact (phi_old x Dx Ip).
      + subst y. destruct (D_has_parent x Dx) as (r & P). rewrite (parent_new x r Dx P) in Z. injection Z as <-. destruct (N.eqb_spec r f) as [Er|Nr]; [apply (up_old c q Hc); exact U|].
        destruct (D_parent x r Dx P) as [X|Dr]; [contradiction|]. exact (IH Ip r Dr eq_refl).
    - apply (up_old c p Hc) in U. pose proof Dx as [Ux Nx]. assert (G : forall x b, up (h_parent A) x b -> b = f -> D x -> up (h_parent B) (phi x) c); [|eapply up_trans; [exact (G x f Ux eq_refl Dx)|exact U]].
      clear x Dx Ux Nx U. intros x b U Eb. induction U as [x|x q b Q U IH]; intros Dx; [exfalso; subst x; exact (D_f Dx)|]. eapply up_next; [exact (parent_new x q Dx Q)|].
      destruct (N.eqb_spec q f) as [->|Nq]; [constructor|]. destruct (D_parent x q Dx Q) as [X|Dq]; [contradiction|]. exact (IH Eb Dq).
  Qed.
  Lemma mem_eq (g g' : hugr) x p x' p' : wf g -> wf g' -> In p (h_nodes g) -> In p' (h_nodes g') -> (up (h_parent g) x p <-> up (h_parent g') x' p') -> memN x (descendants g p) = memN x' (descendants g' p').
  Proof.
    intros Wg Wg' Ip Ip' H. pose proof (desc_iff g Wg p x Ip) as H1. pose proof (desc_iff g' Wg' p' x' Ip') as H2. unfold below in *.
    destruct (memN x (descendants g p)), (memN x' (descendants g' p')); try reflexivity; exfalso.
    - assert (X : false = true) by (apply H2, H, H1; reflexivity). discriminate.
    - assert (X : false = true) by (apply H1, H, H2; reflexivity). discriminate.
  Qed.
  Lemma mem_old y p : In y (h_nodes A) -> In p (h_nodes A) -> memN y (descendants B p) = memN y (descendants A p).
  Proof. intros Iy Ip. apply mem_eq; [exact WB|exact WA|apply nodes_old; exact Ip|exact Ip|]. apply up_old. exact Iy. Qed.
  Lemma mem_new x p : D x -> D p -> memN (phi x) (descendants B (phi p)) = memN x (descendants A p).
  Proof. intros Dx Dp. apply mem_eq; [exact WB|exact WA|apply nodes_new; exact Dp|apply D_live; exact Dp|]. apply up_new; assumption. Qed.
  Lemma mem_mixed x p : D x -> In p (h_nodes A) -> memN (phi x) (descendants B p) = memN c (descendants A p).
  Proof. intros Dx Ip. apply mem_eq; [exact WB|exact WA|apply nodes_old; exact Ip|exact Ip|]. apply up_mixed; assumption. Qed.
  Lemma mem_outside y p : In y (h_nodes A) -> D p -> memN y (descendants B (phi p)) = false.
  Proof.
    intros Iy Dp. destruct (memN y (descendants B (phi p))) eqn:Em; [|reflexivity]. exfalso. apply (desc_iff B WB) in Em; [|apply nodes_new; exact Dp]. unfold below in Em. apply (up_old y _ Iy) in Em.
    apply (phi_old p Dp). exact (up_live A WA _ _ Em Iy).
  Qed.

  (** *** The nodes that are left alone *)
  Lemma kid_K1 n x : In x (h_kids A n) -> h_ops A x <> h_ops A c -> K1 x.
  Proof. intros I Ne. split; [apply (wf_parent_live A WA x n), (wf_kids _ WA); exact I|]. intros ->. contradiction. Qed.
  Lemma fun_K1 x : In x (h_nodes A) -> is_function (h_ops A x) -> K1 x.
  Proof. intros I Fx. split; [exact I|]. intros ->. rewrite Oc in Fx. exact Fx. Qed.
  Lemma io_K1 n i o : get_io A n = Some (i, o) -> (exists r, h_ops A i = OInput r) /\ (exists r, h_ops A o = OOutput r) /\ h_parent A i = Some n /\ h_parent A o = Some n /\ exists l, h_kids A n = i :: o :: l.
  Proof.
    intros H. destruct (io_live A n i o WA H) as [Hn Fl]. destruct (t_region _ T n Hn Fl) as (a & b & l & Ek & Oa & Ob). unfold get_io in H. rewrite Fl, Ek in H. injection H as -> ->.
    split; [exact Oa|]. split; [exact Ob|]. split; [apply (wf_kids _ WA); rewrite Ek; left; reflexivity|]. split; [apply (wf_kids _ WA); rewrite Ek; right; left; reflexivity|]. exists l. exact Ek.
  Qed.
  Lemma static_old n : K1 n -> DeadModel.static_source B n = DeadModel.static_source A n.
  Proof. intros Kn. unfold DeadModel.static_source. rewrite (ops_old n Kn). destruct (static_port (h_ops A n) Inc); [|reflexivity]. rewrite (outs_old n _ Kn). reflexivity. Qed.
  Lemma static_live n x : DeadModel.static_source A n = Some x -> In x (h_nodes A).
  Proof.
    unfold DeadModel.static_source. destruct (static_port (h_ops A n) Inc) as [i|]; [|discriminate]. destruct (linked_outputs A n i) as [|e l] eqn:El; [discriminate|]. intros [= <-]. apply (outs_live n i). rewrite El. left. reflexivity.
  Qed.

  Lemma mirror_old : mirror A B K1.
  Proof.
    constructor.
    - intros n [In_ _] _. apply nodes_old. exact In_.
    - exact ops_old.
    - intros n p [In_ Ne]. unfold get_parent, contains. rewrite (ci_root _ _ _ _ _ _ CI). rewrite (proj2 (memN_iff n _) In_), (proj2 (memN_iff n _) (nodes_old n In_)). destruct (negb (n =? h_root A)%N); cbn [andb]; [|discriminate].
      rewrite (parent_old n In_). intros P. split; [exact P|]. split; [apply (wf_parent_live A WA n p P)|]. intros ->. apply (wf_kids _ WA) in P. rewrite Kc in P. destruct P.
    - intros n i o Kn H. destruct (io_K1 n i o H) as ((ri & Oi) & (ro & Oo) & _ & _ & l & Ek). unfold get_io in *. rewrite (ops_old n Kn), (kids_old n Kn). split; [exact H|].
      split; apply (kid_K1 n); try (rewrite Ek; cbn; auto); rewrite ?Oi, ?Oo, Oc; discriminate.
    - intros n p [In_ _] [Ip _] _. apply mem_old; assumption.
    - intros n x g a i Kn O S0. rewrite (static_old n Kn). split; [exact S0|]. apply fun_K1; [exact (static_live n x S0)|]. eapply Hcallee; eassumption.
    - intros n e Kn O S0. rewrite (slo_old n 0 Kn). split; [exact S0|]. pose proof (slo_live n 0 e S0) as Ie. destruct O as [(t & O)|(g & a & i & O)]; [|apply fun_K1; [exact Ie|eapply Hloadf; eassumption]].
      split; [exact Ie|]. intros Ee. destruct (Hloadc n t e O S0) as (v & u & ok & X). rewrite Ee, Oc in X. discriminate.
    - intros n rows oi ou k x Kn O H Hx. rewrite (kids_old n Kn). split; [exact H|]. apply (kid_K1 n); [eapply nth_error_In; exact H|]. rewrite Oc. intros X. rewrite X in Hx. discriminate.
    - intros n g e Kn O H. rewrite (kids_old n Kn). split; [exact H|]. destruct (t_cfg _ T n g (proj1 Kn) O) as (a & b & l & Ek & Ha & _). rewrite Ek in H. injection H as ->. apply (kid_K1 n); [rewrite Ek; left; reflexivity|]. rewrite Oc. intros X. rewrite X in Ha. discriminate.
    - intros n g e Kn O H. rewrite (kids_old n Kn). split; [exact H|]. destruct (t_cfg _ T n g (proj1 Kn) O) as (a & b & l & Ek & _ & Hb). rewrite Ek in H. injection H as ->. apply (kid_K1 n); [rewrite Ek; right; left; reflexivity|]. rewrite Oc. intros X. rewrite X in Hb. destruct Hb.
    - intros n g t Kn O H Ht. rewrite (kids_old n Kn). split; [exact H|]. apply (kid_K1 n t H). rewrite Oc. intros X. rewrite X in Ht. discriminate.
    - intros b k t j _ Kt _. apply link_old. exact Kt.
    - intros g n0 s p Ig O. apply fun_K1; [exact Ig|]. rewrite O. exact Logic.I.
  Qed.
  Lemma renamed_old : renamed sem ctx A B K1 (fun n => n).
  Proof.
    pose proof mirror_old as R. constructor; try (apply R).
    intros n ins outs Kn. apply (leaf_mirror sem ctx A B K1 R n ins outs Kn).
  Qed.

  (** *** The nodes that are copied *)
  Lemma kid_new n x : D n -> In x (h_kids A n) -> D x.
  Proof. intros Dn I. apply (D_kid n); [apply (wf_kids _ WA); exact I|right; exact Dn]. Qed.
  Lemma io_new n i o : D n -> get_io A n = Some (i, o) -> get_io B (phi n) = Some (phi i, phi o) /\ D i /\ D o.
  Proof.
    intros Dn H. destruct (io_K1 n i o H) as (_ & _ & Pi & Po & l & Ek). unfold get_io in *. rewrite (ops_new n Dn), (kids_new n Dn), Ek. destruct (flow_parent (h_ops A n)); [|discriminate]. split; [reflexivity|].
    split; apply (D_kid n); auto.
  Qed.
  Lemma leaf_new n ins outs : D n -> leaf_step sem ctx A n ins outs -> leaf_step sem ctx B (phi n) ins outs.
  Proof.
    intros Dn H. pose proof (ops_new n Dn) as O. destruct H.
    - eapply l_make; [rewrite O|]; eassumption.
    - eapply l_unpack; [rewrite O| |]; eassumption.
    - eapply l_ext; [rewrite O; eassumption|assumption|apply Huni; assumption].
    - eapply l_tag. rewrite O. eassumption.
    - eapply l_const; [rewrite O; eassumption|rewrite (slo_new n 0 Dn), H0; reflexivity|]. cbn [fst]. destruct (D_dec (fst e)) as [De|Ne]; [rewrite (ops_new _ De); eassumption|].
      rewrite (ci_other _ _ _ _ _ _ CI _ Ne), ops_old; [eassumption|]. split; [exact (slo_live n 0 e H0)|]. intros X. rewrite X, Oc in H1. discriminate.
    - assert (Nd : ~ D (fst e)) by (apply D_fun; eapply Hloadf; eassumption). replace (fst e) with (fst (phi (fst e), snd e)) by (cbn [fst]; apply (ci_other _ _ _ _ _ _ CI _ Nd)).
      eapply l_func; [rewrite O; eassumption|rewrite (slo_new n 0 Dn), H0; reflexivity].
  Qed.
  Lemma renamed_new : renamed sem ctx A B D phi.
  Proof.
    constructor.
    - exact ops_new.
    - exact io_new.
    - intros n rows oi ou k x Dn O H Hx. rewrite (kids_new n Dn). split; [apply map_nth_error; exact H|]. apply (kid_new n x Dn). eapply nth_error_In. exact H.
    - intros n g e Dn O H. rewrite (kids_new n Dn). destruct (h_kids A n) as [|y l] eqn:Ek; [discriminate|]. injection H as ->. split; [reflexivity|]. apply (kid_new n e Dn). rewrite Ek. left. reflexivity.
    - intros n g e Dn O H. rewrite (kids_new n Dn). split; [apply map_nth_error; exact H|]. apply (kid_new n e Dn). eapply nth_error_In. exact H.
    - intros n g t Dn O H Ht. rewrite (kids_new n Dn). split; [apply in_map; exact H|exact (kid_new n t Dn H)].
    - intros b k t j _ Dt _. apply link_new. exact Dt.
    - exact leaf_new.
  Qed.

  (** ** Frames *)
  Variables iF oF : N.
  Hypothesis Hio : get_io A f = Some (iF, oF).

  Lemma io_f : D iF /\ D oF /\ get_io B c = Some (phi iF, phi oF).
  Proof.
    destruct (io_K1 f iF oF Hio) as (_ & _ & Pi & Po & l & Ek). split; [apply (D_kid f); auto|]. split; [apply (D_kid f); auto|].
    destruct (ci_call _ _ _ _ _ _ CI) as (O & _ & _ & _ & _ & K). unfold get_io. rewrite O, K, Ek. reflexivity.
  Qed.
  Definition begun (fr : frame) : Prop := In (start fr) (h_nodes A) /\ exists n s p, h_ops A (start fr) = OFuncDefn n s p.

  (** A frame of code that is left alone, up to a call that has not begun. *)
  Record agree1 (fr fr' : frame) : Prop := {
    a_agree : agree K1 fr fr';
    a_env : env fr' c = env fr c;
    a_pcs : forall n b, K1 n -> pc fr n = Some b -> K1 b;
    a_begun : begun fr;
    a_clean : env fr c = None -> env fr' (phi iF) = None }.
  (** A frame [fr] that waits for the call, and the frame [fr2] of the function that is called. *)
  Record agree2 (fr fr2 fr' : frame) : Prop := {
    b_agree : agree K1 fr fr';
    b_env : env fr' c = env fr c;
    b_pcs : forall n b, K1 n -> pc fr n = Some b -> K1 b;
    b_begun : begun fr;
    b_wait : waiting A fr c;
    b_start : start fr2 = f;
    b_env2 : forall x, D x -> env fr' (phi x) = env fr2 x;
    b_pc2 : forall x, D x -> pc fr' (phi x) = option_map phi (pc fr2 x);
    b_pcs2 : forall x b, D x -> pc fr2 x = Some b -> D b;
    b_out : forall x, ~ D x -> env fr2 x = None;
    b_runs : env fr2 iF <> None }.

  Lemma env_old (fr fr' : frame) y : agree K1 fr fr' -> env fr' c = env fr c -> In y (h_nodes A) -> env fr' y = env fr y.
  Proof. intros G Ec Iy. destruct (N.eq_dec y c) as [->|Ne]; [exact Ec|]. apply (ag_env _ _ _ G). split; assumption. Qed.
  Lemma not_start (fr : frame) y : begun fr -> (forall n s p, h_ops A y <> OFuncDefn n s p) -> N.eqb y (start fr) = false.
  Proof. intros (_ & n & s & p & O) Hy. apply N.eqb_neq. intros ->. exact (Hy n s p O). Qed.
  Lemma inputs_old (fr fr' : frame) n cs : agree K1 fr fr' -> env fr' c = env fr c -> K1 n -> inputs A fr n cs -> inputs B fr' n cs.
  Proof.
    intros G Ec Kn H. unfold inputs in *. rewrite (ag_start _ _ _ G), (ag_args _ _ _ G), (ops_old n Kn). destruct (_ && _); [exact H|].
    destruct H as [HL H]. split; [unfold FlowModel.in_count in *; rewrite (ops_old n Kn); exact HL|]. intros i x Hx. destruct (H i x Hx) as (m & p & row & H1 & H2 & H3).
    exists m, p, row. rewrite (slo_old n i Kn), (env_old fr fr' m G Ec (slo_live n i _ H1)). auto.
  Qed.
  Lemma inputs_call (fr fr' : frame) cs : agree K1 fr fr' -> env fr' c = env fr c -> begun fr -> inputs A fr c cs -> inputs B fr' c cs.
  Proof.
    intros G Ec Bg H. unfold inputs in *. rewrite (ag_start _ _ _ G). rewrite (not_start fr c Bg) in * by (intros n s p; rewrite Oc; discriminate). cbn [andb] in *.
    destruct (ci_call _ _ _ _ _ _ CI) as (O & _). destruct H as [HL H]. unfold FlowModel.in_count in *. rewrite O. rewrite Oc in HL. cbn in HL. split; [exact HL|].
    intros i x Hx. destruct (H i x Hx) as (m & p & row & H1 & H2 & H3). exists m, p, row. rewrite (env_old fr fr' m G Ec (slo_live c i _ H1)). split; [|auto].
    assert (Li : i < length (p_ins sg)) by (rewrite <- HL; apply nth_error_Some; congruence). unfold single_linked_output in *. rewrite (outs_call i Li). exact H1.
  Qed.
  Lemma inputs_new (fr fr2 fr' : frame) n cs : agree2 fr fr2 fr' -> D n -> inputs A fr2 n cs -> inputs B fr' (phi n) cs.
  Proof.
    intros G Dn H. unfold inputs in *. rewrite (b_start _ _ _ G) in H. destruct (N.eqb_spec n f) as [X|_]; [exfalso; subst n; exact (D_f Dn)|]. cbn [andb] in H.
    rewrite (ag_start _ _ _ (b_agree _ _ _ G)). destruct (N.eqb_spec (phi n) (start fr)) as [X|_]; [exfalso; apply (phi_old n Dn); rewrite X; apply (b_begun _ _ _ G)|]. cbn [andb].
    destruct H as [HL H]. split; [unfold FlowModel.in_count in *; rewrite (ops_new n Dn); exact HL|]. intros i x Hx. destruct (H i x Hx) as (m & p & row & H1 & H2 & H3).
    assert (Dm : D m) by (destruct (D_dec m) as [X|X]; [exact X|]; rewrite (b_out _ _ _ G m X) in H2; discriminate).
    exists (phi m), p, row. rewrite (slo_new n i Dn), H1, (b_env2 _ _ _ G m Dm). auto.
  Qed.
  Lemma active_inner (fr fr2 fr' : frame) n : agree2 fr fr2 fr' -> active A fr2 n -> D n.
  Proof.
    intros G (p & i & o & row & P & Io & Ei). assert (Di : D i) by (destruct (D_dec i) as [X|X]; [exact X|]; rewrite (b_out _ _ _ G i X) in Ei; discriminate).
    destruct (io_K1 p i o Io) as (_ & _ & Pi & _). apply (D_kid p); [|exact (D_parent i p Di Pi)]. unfold get_parent in P. destruct (_ && _); [exact P|discriminate].
  Qed.
  Lemma waiting_inner (fr fr2 fr' : frame) n : agree2 fr fr2 fr' -> waiting A fr2 n -> acts (h_ops A n) -> D n.
  Proof.
    intros G (_ & [Ac|X] & _) Hn; [exact (active_inner _ _ _ _ G Ac)|]. exfalso. rewrite (b_start _ _ _ G) in X. subst n. rewrite Of in Hn. exact Hn.
  Qed.
  Lemma waiting_new (fr fr2 fr' : frame) n : agree2 fr fr2 fr' -> D n -> waiting A fr2 n -> waiting B fr' (phi n).
  Proof.
    intros G Dn (_ & H & He). split; [exact (nodes_new n Dn)|]. rewrite (b_env2 _ _ _ G n Dn). split; [|exact He]. left.
    assert (Ac : active A fr2 n) by (destruct H as [H|H]; [exact H|]; exfalso; rewrite (b_start _ _ _ G) in H; subst n; exact (D_f Dn)).
    destruct Ac as (p & i & o & row & P & Io & Ei). assert (P' : h_parent A n = Some p) by (unfold get_parent in P; destruct (_ && _); [exact P|discriminate]).
    assert (Pb : get_parent B (phi n) = Some (if N.eqb p f then c else phi p)).
    { unfold get_parent, contains. rewrite (proj2 (memN_iff _ _) (nodes_new n Dn)). rewrite (ci_root _ _ _ _ _ _ CI). destruct (N.eqb_spec (phi n) (h_root A)) as [X|_]; [exfalso; apply (phi_old n Dn); rewrite X; exact (wf_root A WA)|]. cbn [andb negb]. exact (parent_new n p Dn P'). }
    destruct (D_parent n p Dn P') as [Ep|Dp].
    - rewrite Ep in Io. rewrite Hio in Io. injection Io as <- <-. destruct io_f as (Di & _ & Iob). exists c, (phi iF), (phi oF), row. rewrite Pb, Ep, N.eqb_refl, (b_env2 _ _ _ G iF Di). auto.
    - destruct (io_new p i o Dp Io) as (Iob & Di & _). exists (phi p), (phi i), (phi o), row. rewrite Pb, (b_env2 _ _ _ G i Di). destruct (N.eqb_spec p f) as [X|_]; [exfalso; subst p; exact (D_f Dp)|]. auto.
  Qed.
  Lemma calls_new (fr fr2 fr' : frame) n g ins : agree2 fr fr2 fr' -> D n -> calls A fr2 n g ins -> calls B fr' (phi n) g ins.
  Proof.
    intros G Dn H. destruct H.
    - eapply c_direct; [rewrite (ops_new n Dn); eassumption|eapply inputs_new; eassumption|]. assert (Nd : ~ D callee) by (apply D_fun; eapply Hcallee; eassumption). unfold DeadModel.static_source in *. rewrite (ops_new n Dn).
      destruct (static_port (h_ops A n) Inc) as [i|]; [|discriminate]. rewrite (outs_new n i Dn). destruct (linked_outputs A n i) as [|e l]; [discriminate|]. cbn in *. injection H1 as <-. rewrite (ci_other _ _ _ _ _ _ CI _ Nd). reflexivity.
    - eapply c_indirect; [rewrite (ops_new n Dn); eassumption|eapply inputs_new; eassumption].
  Qed.
  Lemma fits_old n (cs : list conc) : K1 n -> fits A n cs -> fits B n cs.
  Proof. unfold fits, FlowModel.out_count. intros Kn. rewrite (ops_old n Kn). auto. Qed.
  Lemma fits_new n (cs : list conc) : D n -> fits A n cs -> fits B (phi n) cs.
  Proof. unfold fits, FlowModel.out_count. intros Kn. rewrite (ops_new n Kn). auto. Qed.
  Lemma fits_call (cs : list conc) : fits A c cs -> fits B c cs.
  Proof. unfold fits, FlowModel.out_count. destruct (ci_call _ _ _ _ _ _ CI) as (O & _). rewrite O, Oc. auto. Qed.
  Lemma waiting_call (fr fr' : frame) : agree K1 fr fr' -> env fr' c = env fr c -> begun fr -> waiting A fr c -> waiting B fr' c.
  Proof.
    intros G Ec Bg (_ & H & He). split; [exact (nodes_old c Hc)|]. rewrite Ec. split; [|exact He]. left.
    assert (Ac : active A fr c) by (destruct H as [H|H]; [exact H|]; exfalso; destruct Bg as (_ & n & s & p & O); rewrite <- H, Oc in O; discriminate).
    destruct Ac as (p & i & o & row & P & Io & Ei). assert (P' : h_parent A c = Some p) by (unfold get_parent in P; destruct (_ && _); [exact P|discriminate]).
    destruct (io_K1 p i o Io) as (_ & _ & Pi & _). assert (Kp : K1 p) by (split; [apply (wf_parent_live A WA c p P')|intros ->; exact (no_cycle A WA c c P' (up_here _ _))]).
    destruct (m_io _ _ _ mirror_old p i o Kp Io) as (Iob & Ki & _). exists p, i, o, row. split; [|split; [exact Iob|rewrite (ag_env _ _ _ G i Ki); exact Ei]].
    unfold get_parent, contains in *. rewrite (ci_root _ _ _ _ _ _ CI), (proj2 (memN_iff _ _) (nodes_old c Hc)), (parent_old c Hc). rewrite (proj2 (memN_iff _ _) Hc) in P. exact P.
  Qed.

  (** *** Actions *)
  Lemma io_input p i o : get_io A p = Some (i, o) -> i <> c /\ In i (h_nodes A).
  Proof. intros H. destruct (io_K1 p i o H) as ((r & O) & _ & P & _). split; [intros ->; rewrite Oc in O; discriminate|apply (wf_parent_live A WA i p P)]. Qed.
  Lemma apply_old (fr fr' : frame) n a : agree1 fr fr' -> K1 n -> shape A n a -> K1 (touched a) -> agree1 (apply A a fr) (apply B a fr').
  Proof.
    intros [G Ec Pcs Bg Cl] Kn Hs Ka. destruct io_f as (Di & _ & _). constructor.
    - exact (agree_apply A B K1 WA mirror_old fr fr' n a (proj1 Kn) G Hs Ka).
    - destruct a as [m cs|p i cs|d p i cs|m cs]; cbn in *.
      + destruct Hs as (-> & _). unfold upd. destruct (N.eqb_spec c n) as [X|_]; [exfalso; exact (proj2 Kn (eq_sym X))|exact Ec].
      + rewrite (mem_old c p Hc (proj1 Ka)), Ec. reflexivity.
      + rewrite (mem_old c p Hc (proj1 Ka)), Ec. reflexivity.
      + destruct Hs as (-> & _). unfold upd. destruct (N.eqb_spec c n) as [X|_]; [exfalso; exact (proj2 Kn (eq_sym X))|exact Ec].
    - intros x b Kx. destruct a as [m cs|p i cs|d p i cs|m cs]; cbn in *.
      + apply Pcs. exact Kx.
      + destruct (memN x (descendants A p)); [discriminate|]. apply Pcs. exact Kx.
      + unfold upd. destruct (N.eqb x d); [intros [= <-]; exact Ka|]. destruct (memN x (descendants A p)); [discriminate|]. apply Pcs. exact Kx.
      + unfold upd. destruct (N.eqb x m); [discriminate|]. apply Pcs. exact Kx.
    - unfold begun. destruct a; exact Bg.
    - destruct a as [m cs|p i cs|d p i cs|m cs]; cbn in *.
      + destruct Hs as (-> & _). unfold upd. destruct (N.eqb_spec c n) as [X|_]; [discriminate|]. destruct (N.eqb_spec (phi iF) n) as [X|_]; [exfalso; apply (phi_old iF Di); rewrite X; exact (proj1 Kn)|exact Cl].
      + destruct Hs as ((o & Io) & _). destruct (io_input p i o Io) as (Nc & Ii). destruct (N.eqb_spec c i) as [X|_]; [exfalso; exact (Nc (eq_sym X))|]. destruct (N.eqb_spec (phi iF) i) as [X|_]; [exfalso; apply (phi_old iF Di); rewrite X; exact Ii|].
        rewrite (mem_mixed iF p Di (proj1 Ka)). destruct (memN c (descendants A p)); [reflexivity|exact Cl].
      + destruct Hs as (_ & (o & Io) & _). destruct (io_input p i o Io) as (Nc & Ii). destruct (N.eqb_spec c i) as [X|_]; [exfalso; exact (Nc (eq_sym X))|]. destruct (N.eqb_spec (phi iF) i) as [X|_]; [exfalso; apply (phi_old iF Di); rewrite X; exact Ii|].
        rewrite (mem_mixed iF p Di (proj1 Ka)). destruct (memN c (descendants A p)); [reflexivity|exact Cl].
      + destruct Hs as (-> & _). unfold upd. destruct (N.eqb_spec c n) as [X|_]; [discriminate|]. destruct (N.eqb_spec (phi iF) n) as [X|_]; [exfalso; apply (phi_old iF Di); rewrite X; exact (proj1 Kn)|exact Cl].
  Qed.

  Lemma eq_old x y : D x -> In y (h_nodes A) -> N.eqb y (phi x) = false.
  Proof. intros Dx Iy. apply N.eqb_neq. exact (phi_ne x y Dx Iy). Qed.
  Lemma eq_new x y : D x -> D y -> N.eqb (phi x) (phi y) = N.eqb x y.
  Proof. intros Dx Dy. destruct (N.eqb_spec x y) as [->|Ne]; [apply N.eqb_refl|]. apply N.eqb_neq. intros X. exact (Ne (ci_inj _ _ _ _ _ _ CI x y Dx Dy X)). Qed.
  (** An action inside the copy leaves the other nodes alone. *)
  Lemma apply_aside (fr fr' : frame) a : agree K1 fr fr' -> env fr' c = env fr c -> D (touched a) -> (match a with Enter _ i _ | Jump _ _ i _ => D i | _ => True end) ->
    (match a with Jump d _ _ _ => D d | _ => True end) -> agree K1 fr (apply B (rename phi a) fr') /\ env (apply B (rename phi a) fr') c = env fr c.
  Proof.
    intros G Ec Dt Di Dd. destruct a as [m cs|p i cs|d p i cs|m cs]; cbn in *; (split; [constructor; cbn; try apply G; intros x Kx|]); unfold upd;
      repeat rewrite (eq_old m) by (try apply Kx; assumption); repeat rewrite (eq_old i) by (try apply Kx; assumption); repeat rewrite (eq_old d) by (try apply Kx; assumption);
      repeat rewrite mem_outside by (try apply Kx; assumption); try (apply G; exact Kx); try exact Ec.
  Qed.
  Lemma apply_new (fr fr2 fr' : frame) n a : agree2 fr fr2 fr' -> D n -> shape A n a -> D (touched a) -> agree2 fr (apply A a fr2) (apply B (rename phi a) fr').
  Proof.
    intros [G Ec Pcs Bg Wt St E2 P2 Pcs2 Ou Ru] Dn Hs Da.
    assert (Hi : match a with Enter _ i _ | Jump _ _ i _ => D i | _ => True end).
    { destruct a as [m cs|p i cs|d p i cs|m cs]; cbn in *; try exact Logic.I; [destruct Hs as ((o & Io) & _)|destruct Hs as (_ & (o & Io) & _)]; exact (proj1 (proj2 (io_new p i o Da Io))). }
    assert (Hd : match a with Jump d _ _ _ => D d | _ => True end) by (destruct a; cbn in *; try exact Logic.I; destruct Hs as (-> & _); exact Dn).
    assert (Hrun : match a with Enter p _ _ | Jump _ p _ _ => memN iF (descendants A p) = false | _ => True end).
    { assert (G0 : forall p i o, D p -> get_io A p = Some (i, o) -> memN iF (descendants A p) = false).
      { intros p i o Dp Io. destruct (memN iF (descendants A p)) eqn:Em; [|reflexivity]. exfalso. apply (desc_iff A WA p iF (D_live p Dp)) in Em. unfold below in Em. destruct (io_K1 f iF oF Hio) as ((r & Oi) & _ & Pi & _).
        inversion Em as [|? q ? Q Uq]; subst; [|rewrite Pi in Q; injection Q as <-; destruct Dp as [Up Np]; exact (Np (up_antisym A WA _ _ Up Uq))].
        destruct (io_live A _ _ _ WA Io) as [_ X]. rewrite Oi in X. discriminate. }
      destruct a as [m cs|p i cs|d p i cs|m cs]; cbn in *; try exact Logic.I; [destruct Hs as ((o & Io) & _)|destruct Hs as (_ & (o & Io) & _)]; exact (G0 p i o Da Io). }
    destruct (apply_aside fr fr' a G Ec Da Hi Hd) as (G' & Ec').
    constructor; try assumption.
    - destruct a; exact St.
    - intros x Dx. destruct a as [m cs|p i cs|d p i cs|m cs]; cbn in *; unfold upd; rewrite ?(eq_new x m Dx) by assumption; rewrite ?(eq_new x i Dx) by assumption; rewrite ?(mem_new x p Dx) by assumption; rewrite ?(E2 x Dx); reflexivity.
    - intros x Dx. destruct a as [m cs|p i cs|d p i cs|m cs]; cbn in *; unfold upd; rewrite ?(eq_new x m Dx) by assumption; rewrite ?(eq_new x d Dx) by assumption; rewrite ?(mem_new x p Dx) by assumption; rewrite ?(P2 x Dx).
      + reflexivity.
      + destruct (memN x (descendants A p)); reflexivity.
      + destruct (N.eqb x d); [reflexivity|]. destruct (memN x (descendants A p)); reflexivity.
      + destruct (N.eqb x m); reflexivity.
    - intros x b Dx. destruct a as [m cs|p i cs|d p i cs|m cs]; cbn in *.
      + apply Pcs2. exact Dx.
      + destruct (memN x (descendants A p)); [discriminate|]. apply Pcs2. exact Dx.
      + unfold upd. destruct (N.eqb x d); [intros [= <-]; exact Da|]. destruct (memN x (descendants A p)); [discriminate|]. apply Pcs2. exact Dx.
      + unfold upd. destruct (N.eqb x m); [discriminate|]. apply Pcs2. exact Dx.
    - intros x Nx. destruct a as [m cs|p i cs|d p i cs|m cs]; cbn in *; unfold upd.
      + destruct (N.eqb_spec x m) as [->|_]; [contradiction|exact (Ou x Nx)].
      + destruct (N.eqb_spec x i) as [->|_]; [contradiction|]. destruct (memN x (descendants A p)); [reflexivity|exact (Ou x Nx)].
      + destruct (N.eqb_spec x i) as [->|_]; [contradiction|]. destruct (memN x (descendants A p)); [reflexivity|exact (Ou x Nx)].
      + destruct (N.eqb_spec x m) as [->|_]; [contradiction|exact (Ou x Nx)].
    - destruct a as [m cs|p i cs|d p i cs|m cs]; cbn in *; unfold upd.
      + destruct (N.eqb iF m); [discriminate|exact Ru].
      + destruct (N.eqb iF i); [discriminate|]. rewrite Hrun. exact Ru.
      + destruct (N.eqb iF i); [discriminate|]. rewrite Hrun. exact Ru.
      + destruct (N.eqb iF m); [discriminate|exact Ru].
  Qed.
  Lemma put_old (fr fr' : frame) n (cs : list conc) : agree1 fr fr' -> In n (h_nodes A) -> agree1 (put fr n cs) (put fr' n cs).
  Proof.
    intros [G Ec Pcs Bg Cl] Hn. destruct io_f as (Di & _ & _). constructor; [apply agree_put; exact G| |exact Pcs|exact Bg|]; cbn; unfold upd.
    - rewrite Ec. reflexivity.
    - destruct (N.eqb_spec (phi iF) n) as [X|_]; [exfalso; apply (phi_old iF Di); rewrite X; exact Hn|]. destruct (N.eqb c n); [discriminate|exact Cl].
  Qed.
  Lemma put_new (fr fr2 fr' : frame) n (cs : list conc) : agree2 fr fr2 fr' -> D n -> agree2 fr (put fr2 n cs) (put fr' (phi n) cs).
  Proof.
    intros [G Ec Pcs Bg Wt St E2 P2 Pcs2 Ou Ru] Dn. destruct (apply_aside fr fr' (Put n cs) G Ec Dn Logic.I Logic.I) as (G' & Ec'). constructor; try assumption; cbn.
    - intros x Dx. unfold upd. rewrite (eq_new x n Dx Dn), (E2 x Dx). reflexivity.
    - intros x Nx. unfold upd. destruct (N.eqb_spec x n) as [->|_]; [contradiction|exact (Ou x Nx)].
    - unfold upd. destruct (N.eqb iF n); [discriminate|exact Ru].
  Qed.
  Lemma new_agree g i o (ins : list conc) n s p : h_ops A g = OFuncDefn n s p -> get_io A g = Some (i, o) -> agree1 (new_frame g i ins) (new_frame g i ins).
  Proof.
    intros Og Io. destruct io_f as (Di & _ & _). destruct (io_input g i o Io) as (_ & Ii). constructor; cbn; [apply agree_new|reflexivity|discriminate| |].
    - split; [apply (io_live A g i o WA Io)|eauto].
    - intros _. destruct (N.eqb_spec (phi iF) i) as [X|_]; [exfalso; apply (phi_old iF Di); rewrite X; exact Ii|reflexivity].
  Qed.
  (** The call begins, ... *)
  Lemma call_begins (fr fr' : frame) (ins : list conc) : agree1 fr fr' -> waiting A fr c -> agree2 fr (new_frame f iF ins) (enter B fr' c (phi iF) ins).
  Proof.
    intros [G Ec Pcs Bg Cl] Wt. destruct io_f as (Di & _ & _).
    assert (Hm : forall y, In y (h_nodes A) -> y <> c -> memN y (descendants B c) = false).
    { intros y Iy Ne. rewrite (mem_old y c Iy Hc). destruct (memN y (descendants A c)) eqn:Em; [|reflexivity]. exfalso. apply (desc_iff A WA c y Hc) in Em. unfold below in Em. apply Ne. clear - Em Kc WA.
      remember c as d eqn:Ed in Em. revert Ed. induction Em as [y|y q d Q U IH]; intros Ed; [exact Ed|]. rewrite (IH Ed) in Q. apply (wf_kids _ WA) in Q. rewrite Kc in Q. destruct Q. }
    assert (Hn : forall x, D x -> memN (phi x) (descendants B c) = true).
    { intros x Dx. rewrite (mem_mixed x c Dx Hc). apply (desc_iff A WA c c Hc). constructor. }
    constructor; try assumption; cbn.
    - constructor; cbn; try apply G; intros x [Ix Nx]; rewrite ?(eq_old iF x Di Ix), (Hm x Ix Nx); apply G; split; assumption.
    - rewrite (eq_old iF c Di Hc). destruct Wt as (_ & _ & X). rewrite X. destruct (memN c (descendants B c)); [reflexivity|]. rewrite Ec. exact X.
    - reflexivity.
    - intros x Dx. rewrite (eq_new x iF Dx Di), (Hn x Dx). reflexivity.
    - intros x Dx. rewrite (Hn x Dx). reflexivity.
    - discriminate.
    - intros x Nx. destruct (N.eqb_spec x iF) as [->|_]; [contradiction|reflexivity].
    - rewrite N.eqb_refl. discriminate.
  Qed.
  (** ... and ends. *)
  Lemma call_ends_here (fr fr2 fr' : frame) (outs : list conc) : agree2 fr fr2 fr' -> agree1 (put fr c outs) (put fr' c outs).
  Proof.
    intros [G Ec Pcs Bg Wt St E2 P2 Pcs2 Ou Ru]. constructor; [apply agree_put; exact G| |exact Pcs|exact Bg|]; cbn; unfold upd; rewrite N.eqb_refl; [reflexivity|discriminate].
  Qed.

  (** ** Stacks *)
  Definition inlined_top (st : stack) : bool := match st with (_, Some y) :: _ => N.eqb y c | _ => false end.
  (** The node that waits for a frame. *)
  Definition back (st : stack) (r r' : option N) : Prop :=
    if inlined_top st then exists x, r = Some x /\ D x /\ r' = Some (phi x) else r' = r /\ forall x, r = Some x -> K1 x.
  Inductive rel : stack -> stack -> Prop :=
  | rel_nil : rel [] []
  | rel_one fr fr' r r' st st' : agree1 fr fr' -> back st r r' -> rel st st' -> rel ((fr, r) :: st) ((fr', r') :: st')
  | rel_two fr fr2 fr' r r' st st' : agree2 fr fr2 fr' -> back st r r' -> rel st st' -> rel ((fr2, Some c) :: (fr, r) :: st) ((fr', r') :: st').

  Lemma back_top (st : stack) r r' (fr : frame) (st0 : stack) : back st r r' -> inlined_top ((fr, r) :: st0) = false.
  Proof.
    unfold back. cbn. destruct r as [y|]; [|reflexivity]. destruct (inlined_top st).
    - intros (x & [= <-] & Dx & _). apply N.eqb_neq. intros ->. exact (D_c Dx).
    - intros [_ H]. apply N.eqb_neq. apply H. reflexivity.
  Qed.
  Lemma caller_K1 (fr : frame) n f0 ins : waiting A fr n -> calls A fr n f0 ins -> n = c \/ K1 n.
  Proof. intros (I & _) _. destruct (N.eq_dec n c) as [E0|E0]; [left; exact E0|right; split; assumption]. Qed.

  Lemma step_sim (st st2 st' : stack) : rel st st' -> step sem ctx A st st2 -> exists st2', step sem ctx B st' st2' /\ rel st2 st2'.
  Proof.
    intros Hr Hs. inversion Hs as [fr frn r st0 Hl E1 E2|fr r st0 n g n0 g0 p0 i o ins Hw Hcl Og Io Hfit E1 E2|fr n frc r st0 i o outs Io Hin Hfit E1 E2]; subst st st2.
    - inversion Hr as [|fr0 fr' r0 r' st1 st1' G Bk Hr' E1 E2|fr0 fr2 fr' r0 r' st1 st1' G Bk Hr' E1 E2]; subst.
      + destruct (local_rename sem ctx A B K1 (fun n => n) WA renamed_old fr frn Hl) as (n & a & Hw & Hal & Hsh & -> & Ht & Hgo).
        assert (Kn : K1 n) by (split; [apply Hw|intros ->; rewrite Oc in Hal; exact Hal]). exists ((apply B a fr', r') :: st1'). split.
        * apply s_local. assert (Ea : rename (fun n => n) a = a) by (destruct a; reflexivity). rewrite <- Ea. apply Hgo.
          -- apply (ag_env _ _ _ (a_agree _ _ G)).
          -- rewrite (ag_pc _ _ _ (a_agree _ _ G) n Kn). destruct (pc fr n); reflexivity.
          -- exact Kn.
          -- intros b. apply (a_pcs _ _ G). exact Kn.
          -- exact (waiting_mirror A B K1 mirror_old fr fr' n (a_agree _ _ G) Kn Hw).
          -- intros m cs Km. apply inputs_old; [exact (a_agree _ _ G)|exact (a_env _ _ G)|exact Km].
        * apply rel_one; [|exact Bk|exact Hr']. eapply apply_old; [exact G|exact Kn|exact Hsh|apply Ht; exact Kn].
      + destruct (local_rename sem ctx A B D phi WA renamed_new fr frn Hl) as (n & a & Hw & Hal & Hsh & -> & Ht & Hgo).
        assert (Dn : D n) by (apply (waiting_inner _ _ _ _ G Hw); destruct (h_ops A n); try exact Logic.I; exact Hal). exists ((apply B (rename phi a) fr', r') :: st1'). split.
        * apply s_local. apply Hgo.
          -- apply G.
          -- apply G. exact Dn.
          -- exact Dn.
          -- intros b. apply (b_pcs2 _ _ _ G). exact Dn.
          -- exact (waiting_new _ _ _ _ G Dn Hw).
          -- intros m cs. apply (inputs_new _ _ _ _ _ G).
        * apply rel_two; [|exact Bk|exact Hr']. eapply apply_new; [exact G|exact Dn|exact Hsh|apply Ht; exact Dn].
    - assert (Kg : K1 g) by (apply fun_K1; [apply (io_live A g i o WA Io)|rewrite Og; exact Logic.I]).
      assert (Iob : get_io B g = Some (i, o)) by (apply (m_io _ _ _ mirror_old g i o Kg Io)). assert (Ki : K1 i) by (apply (m_io _ _ _ mirror_old g i o Kg Io)).
      assert (Ogb : h_ops B g = OFuncDefn n0 g0 p0) by (rewrite (ops_old g Kg); exact Og).
      inversion Hr as [|fr0 fr' r0 r' st1 st1' G Bk Hr' E1 E2|fr0 fr2 fr' r0 r' st1 st1' G Bk Hr' E1 E2]; subst.
      + destruct (N.eq_dec n c) as [->|Nc].
        * assert (Eg : g = f /\ inputs A fr c ins) by (inversion Hcl as [f1 g1 a1 ins1 c1 O1 I1 S1|g1 ins1 c1 O1 I1]; subst; [split; [congruence|exact I1]|rewrite Oc in O1; discriminate]). destruct Eg as [-> Hi].
          rewrite Hio in Io. injection Io as <- <-. destruct io_f as (Di & _ & Ioc). exists ((enter B fr' c (phi iF) ins, r') :: st1'). split.
          -- apply s_local. destruct (ci_call _ _ _ _ _ _ CI) as (O & _). eapply s_dfg_in with (n := c); [apply (waiting_call fr fr'); [exact (a_agree _ _ G)|exact (a_env _ _ G)|exact (a_begun _ _ G)|exact Hw]|exact O|exact Ioc|apply (a_clean _ _ G); apply Hw|apply (inputs_call fr fr'); [exact (a_agree _ _ G)|exact (a_env _ _ G)|exact (a_begun _ _ G)|exact Hi]|apply fits_new; assumption].
          -- apply rel_two; [|exact Bk|exact Hr']. apply call_begins; assumption.
        * assert (Kn : K1 n) by (split; [apply Hw|exact Nc]). exists ((new_frame g i ins, Some n) :: (fr', r') :: st1'). split.
          -- eapply s_call; [exact (waiting_mirror A B K1 mirror_old fr fr' n (a_agree _ _ G) Kn Hw)|eapply calls_mirror; [exact mirror_old|exact Kn|intros cs; apply inputs_old; [exact (a_agree _ _ G)|exact (a_env _ _ G)|exact Kn]|exact Hcl]|exact Ogb|exact Iob|apply fits_old; assumption].
          -- apply rel_one; [eapply new_agree; eassumption| |apply rel_one; assumption]. unfold back. rewrite (back_top _ _ _ fr st0 Bk). split; [reflexivity|]. intros x [= <-]. exact Kn.
      + assert (Dn : D n) by (apply (waiting_inner _ _ _ _ G Hw); inversion Hcl as [f1 g1 a1 ins1 c1 O1 I1 S1|g1 ins1 c1 O1 I1]; rewrite O1; exact Logic.I). exists ((new_frame g i ins, Some (phi n)) :: (fr', r') :: st1'). split.
        * eapply s_call; [exact (waiting_new _ _ _ _ G Dn Hw)|exact (calls_new _ _ _ _ _ _ G Dn Hcl)|exact Ogb|exact Iob|apply fits_old; assumption].
        * apply rel_one; [eapply new_agree; eassumption| |apply rel_two; assumption]. unfold back. cbn [inlined_top]. rewrite N.eqb_refl. exists n. auto.
    - inversion Hr as [|fr0 fr' r0 r' st1 st1' G Bk Hr' E1 E2|fr0 fr2 fr' r0 r' st1 st1' G Bk Hr' E1 E2]; subst.
      + assert (Ks : K1 (start fr)) by (destruct (a_begun _ _ G) as (Is & x1 & x2 & x3 & O); apply fun_K1; [exact Is|rewrite O; exact Logic.I]).
        destruct (m_io _ _ _ mirror_old _ i o Ks Io) as (Iob & _ & Ko). assert (Io' : get_io B (start fr') = Some (i, o)) by (rewrite (ag_start _ _ _ (a_agree _ _ G)); exact Iob).
        assert (Hin' : inputs B fr' o outs) by (apply (inputs_old fr fr'); [exact (a_agree _ _ G)|exact (a_env _ _ G)|exact Ko|exact Hin]).
        inversion Hr' as [|fr0 frc' r0 r2 st2 st2' G2 Bk2 Hr2 E1 E2|fr0 fr2 frc' r0 r2 st2 st2' G2 Bk2 Hr2 E1 E2]; subst.
        * unfold back in Bk. rewrite (back_top _ _ _ frc st0 Bk2) in Bk. destruct Bk as [-> Kn]. specialize (Kn n eq_refl). exists ((put frc' n outs, r2) :: st2'). split.
          -- eapply s_return; [exact Io'|exact Hin'|apply fits_old; assumption].
          -- apply rel_one; [|exact Bk2|exact Hr2]. apply put_old; [exact G2|exact (proj1 Kn)].
        * unfold back in Bk. cbn [inlined_top] in Bk. rewrite N.eqb_refl in Bk. destruct Bk as (x & [= <-] & Dn & ->). exists ((put frc' (phi n) outs, r2) :: st2'). split.
          -- eapply s_return; [exact Io'|exact Hin'|apply fits_new; assumption].
          -- apply rel_two; [|exact Bk2|exact Hr2]. apply put_new; assumption.
      + rewrite (b_start _ _ _ G), Hio in Io. injection Io as <- <-. destruct io_f as (Di & Do & Ioc). exists ((put fr' c outs, r') :: st1'). split.
        * apply s_local. destruct (ci_call _ _ _ _ _ _ CI) as (O & _). eapply s_dfg_out with (n := c); [apply (waiting_call frc fr'); [exact (b_agree _ _ _ G)|exact (b_env _ _ _ G)|exact (b_begun _ _ _ G)|exact (b_wait _ _ _ G)]|exact O|exact Ioc|rewrite (b_env2 _ _ _ G iF Di); apply G|exact (inputs_new _ _ _ _ _ G Do Hin)|apply fits_call; exact Hfit].
        * apply rel_one; [|exact Bk|exact Hr']. exact (call_ends_here _ _ _ _ G).
  Qed.

  Lemma extern_sim (st st2 st' : stack) : rel st st' -> extern_step sem A st st2 -> exists st2', extern_step sem B st' st2' /\ rel st2 st2'.
  Proof.
    intros Hr Hs. inversion Hs as [fr r st0 n g n0 g0 p0 ins outs Hw Hcl Og Hx Hfit E1 E2]; subst st st2.
    inversion Hr as [|fr0 fr' r0 r' st1 st1' G Bk Hr' E1 E2|fr0 fr2 fr' r0 r' st1 st1' G Bk Hr' E1 E2]; subst.
    - assert (Nc : n <> c) by (intros ->; inversion Hcl as [f1 g1 a1 ins1 c1 O1 I1 S1|g1 ins1 c1 O1 I1]; subst; [rewrite Sc in S1; injection S1 as <-; rewrite Of in Og; discriminate|rewrite Oc in O1; discriminate]).
      assert (Kn : K1 n) by (split; [apply Hw|exact Nc]). exists ((put fr' n outs, r') :: st1'). split.
      + assert (Og' : h_ops B g = OFuncDecl n0 g0 p0) by (apply Hdecl; exact Og).
        eapply s_extern; [exact (waiting_mirror A B K1 mirror_old fr fr' n (a_agree _ _ G) Kn Hw)|eapply calls_mirror; [exact mirror_old|exact Kn|intros cs; apply inputs_old; [exact (a_agree _ _ G)|exact (a_env _ _ G)|exact Kn]|exact Hcl]|exact Og'|exact Hx|apply fits_old; assumption].
      + apply rel_one; [|exact Bk|exact Hr']. apply put_old; [exact G|exact (proj1 Kn)].
    - assert (Dn : D n) by (apply (waiting_inner _ _ _ _ G Hw); inversion Hcl as [f1 g1 a1 ins1 c1 O1 I1 S1|g1 ins1 c1 O1 I1]; rewrite O1; exact Logic.I). exists ((put fr' (phi n) outs, r') :: st1'). split.
      + assert (Og' : h_ops B g = OFuncDecl n0 g0 p0) by (apply Hdecl; exact Og).
        eapply s_extern; [exact (waiting_new _ _ _ _ G Dn Hw)|exact (calls_new _ _ _ _ _ _ G Dn Hcl)|exact Og'|exact Hx|apply fits_new; assumption].
      + apply rel_two; [|exact Bk|exact Hr']. apply put_new; assumption.
  Qed.
  Lemma all_sim (st st2 st' : stack) : rel st st' -> all_steps sem ctx A st st2 -> exists st2', all_steps sem ctx B st' st2' /\ rel st2 st2'.
  Proof.
    intros Hr Hs. induction Hs as [st|a b d Hs IH H]; [exists st'; split; [constructor|exact Hr]|]. destruct (IH Hr) as (b' & Hb & Rb). destruct H as [H|H].
    - destruct (step_sim _ _ _ Rb H) as (d' & Hd & Rd). exists d'. split; [eapply all_more; [eassumption|left; exact Hd]|exact Rd].
    - destruct (extern_sim _ _ _ Rb H) as (d' & Hd & Rd). exists d'. split; [eapply all_more; [eassumption|right; exact Hd]|exact Rd].
  Qed.

  (** What a function computes, it computes after inlining. *)
  Theorem inlined_computes g ins outs n s p : h_ops A g = OFuncDefn n s p -> computes sem ctx A g ins outs -> computes sem ctx B g ins outs.
  Proof.
    intros Og (i & o & fr & Io & Hfit & Hs & Hin). assert (Kg : K1 g) by (apply fun_K1; [apply (io_live A g i o WA Io)|rewrite Og; exact Logic.I]).
    destruct (m_io _ _ _ mirror_old g i o Kg Io) as (Iob & Ki & Ko).
    assert (Hr : rel [(new_frame g i ins, None)] [(new_frame g i ins, None)]).
    { apply rel_one; [eapply new_agree; eassumption| |constructor]. split; [reflexivity|discriminate]. }
    destruct (all_sim _ _ _ Hr Hs) as (st' & Hs' & Hr'). inversion Hr' as [|fr0 fr' r0 r' st1 st1' G Bk Hr2 E1 E2|]; subst. inversion Hr2; subst. destruct Bk as [-> _].
    exists i, o, fr'. split; [exact Iob|]. split; [apply fits_old; assumption|]. split; [exact Hs'|]. apply (inputs_old fr fr'); [exact (a_agree _ _ G)|exact (a_env _ _ G)|exact Ko|exact Hin].
  Qed.
End Sim.
