(** Proofs about the checks of ports and edges. *)
From Coq Require Import List Bool NArith Arith Lia Relations.
From Verif Require Import TagModel TypesModel TypesProofs GraphModel GraphSpec GraphProofs GraphRemove Graphs OpModel OpSpec OpProofs
  DeadModel DeadProofs DeadFuncs ValidModel ValidSpec ValidProofs.
Import ListNotations.

(** The numbers of ports are those of the operations. *)
Definition counted {M} (h : hugr op M) : Prop := forall n, In n (h_nodes h) -> tag_in_range (h_ops h n) = true /\
  h_in h n = port_count (h_ops h n) Inc /\ h_out h n = port_count (h_ops h n) Out.

Lemma ports_kind : forall o d ks, ports o d ks -> length ks = port_count o d /\
  forall i, i < port_count o d -> port_kind o d i = nth_error ks i.
Proof.
  intros o d ks P. pose proof (layout_ports o d ks P) as <-. rewrite layout_length. split; [reflexivity|]. intros i. apply layout_kind.
Qed.

Lemma counted_iff : forall {M} (h : hugr op M), counted h <->
  forall n, In n (h_nodes h) -> exists ki ko, ports (h_ops h n) Inc ki /\ ports (h_ops h n) Out ko /\ h_in h n = length ki /\ h_out h n = length ko.
Proof.
  intros M h. split; intros C n I; specialize (C n I).
  - destruct C as (T & A & B). destruct (ports_exists (h_ops h n) Inc T) as (ki & Pi). destruct (ports_exists (h_ops h n) Out T) as (ko & Po).
    exists ki, ko. rewrite (proj1 (ports_kind _ _ _ Pi)), (proj1 (ports_kind _ _ _ Po)). auto.
  - destruct C as (ki & ko & Pi & Po & A & B). rewrite A, B, (proj1 (ports_kind _ _ _ Pi)), (proj1 (ports_kind _ _ _ Po)).
    split; [|auto]. destruct (h_ops h n); try reflexivity. cbn. inversion Pi as [| | | | | | | | | | | | | | | | | | | | | | | | | |t vs r E| | | | | | | | | | | | |]; subst.
    apply Nat.ltb_lt. apply nth_error_Some. congruence.
Qed.

Section Edges.
  Context {M : Type}.
  Notation hugr := (hugr op M).
  Variable env : N -> N -> option typedef.
  Variable defs : N -> N -> opsig.
  Variable h : hugr.
  Hypothesis W : wf h.
  Hypothesis C : counted h.

  Lemma kind_at_iff : forall n d i k, In n (h_nodes h) -> kind_at h n d i k <-> i < num_ports h n d /\ port_kind (h_ops h n) d i = Some k.
  Proof.
    intros n d i k I. destruct (C n I) as (T & A & B). destruct (ports_exists _ d T) as (ks & P). destruct (ports_kind _ _ _ P) as [L K].
    assert (E : num_ports h n d = port_count (h_ops h n) d) by (destruct d; assumption). rewrite E. split.
    - intros (ks' & P' & X). destruct (ports_kind _ _ _ P') as [L' K']. assert (i < port_count (h_ops h n) d).
      { rewrite <- L'. apply nth_error_Some. congruence. } split; [assumption|]. now rewrite K'.
    - intros [Li X]. exists ks. split; [exact P|]. now rewrite <- K.
  Qed.

  Lemma kind_exists : forall n d i, In n (h_nodes h) -> i < num_ports h n d -> exists k, port_kind (h_ops h n) d i = Some k.
  Proof.
    intros n d i I L. destruct (C n I) as (T & A & B). destruct (ports_exists _ d T) as (ks & P). destruct (ports_kind _ _ _ P) as [Lk K].
    assert (E : num_ports h n d = port_count (h_ops h n) d) by (destruct d; assumption). rewrite E in L. rewrite K by exact L.
    rewrite <- Lk in L. apply nth_error_Some in L. destruct (nth_error ks i); [eauto|congruence].
  Qed.

  Lemma up_split : forall n a, up (h_parent h) n a -> n = a \/ exists p, h_parent h n = Some p /\ up (h_parent h) p a.
  Proof. intros n a U. inversion U; subst; eauto. Qed.

  (** What the walk up from the target finds. *)
  Definition order_to (s a : N) : Prop := exists i j, kind_at h s Out i EOrder /\ In ((s, i), (a, j)) (h_links h).
  Definition cfg_op (o : op) : Prop := exists g, o = OCfg g.

  Definition found (s : N) (static : bool) (b : N) (a : N) : Prop :=
    (exists x, up (h_parent h) a x /\ h_parent h x = Some b /\ (static = false -> order_to s x)) \/
    (static = false /\ exists x c, up (h_parent h) a x /\ h_parent h x = Some c /\ h_parent h b = Some c /\ x <> b /\
       cfg_op (h_ops h c) /\ dominates h c b x).

  Lemma order_iff : forall s a,
    existsb (fun i => match port_kind (h_ops h s) Out i with Some EOrder => true | _ => false end) (connections h s a) = true <-> order_to s a.
  Proof.
    intros s a. rewrite existsb_exists. unfold order_to, connections. split.
    - intros (i & I & E). apply in_map_iff in I. destruct I as ([[x i'] [y j]] & F & I). cbn in F. subst i'.
      apply filter_In in I. cbn in I. destruct I as [I B]. apply andb_true_iff in B. destruct B as [B1 B2]. apply N.eqb_eq in B1, B2. subst.
      exists i, j. split; [|exact I]. destruct (wf_links h W _ I) as [[Ls Lo] _]. cbn in Ls, Lo. apply kind_at_iff; [exact Ls|].
      split; [exact Lo|]. destruct (port_kind (h_ops h s) Out i) as [[]|]; try discriminate. reflexivity.
    - intros (i & j & K & I). destruct (wf_links h W _ I) as [[Ls Lo] _]. cbn in Ls, Lo. apply kind_at_iff in K; [|exact Ls].
      exists i. split.
      + apply in_map_iff. exists ((s, i), (a, j)). split; [reflexivity|]. apply filter_In. split; [exact I|]. cbn. now rewrite !N.eqb_refl.
      + now rewrite (proj2 K).
  Qed.

  Lemma climb_iff : forall static s d b fuel a, a <> b -> In a (h_nodes h) ->
    (forall k x, hops (h_parent h) k a = Some x -> k < fuel) ->
    climb_edge fuel h s d static b a = VOk <-> found (fst s) static b a.
  Proof.
    intros static s d b. induction fuel as [|fuel IH]; intros a Nab Ia F.
    { specialize (F 0 a eq_refl). lia. }
    cbn [climb_edge]. rewrite (get_parent_eq h W). destruct (h_parent h a) as [ap|] eqn:Pa.
    2:{ split; [discriminate|]. intros [(x & U & P & _)|(_ & x & c & U & P & _)]; apply up_split in U;
          (destruct U as [<-|(q & Q & _)]; congruence). }
    destruct (N.eqb_spec ap b) as [->|Nb].
    - assert (X : found (fst s) static b a <-> (static = false -> order_to (fst s) a)).
      { split.
        - intros [(x & U & P & O)|(St & x & c & U & P & Q & Ne & _)].
          + apply up_split in U. destruct U as [<-|(q & Q & U)]; [exact O|]. rewrite Pa in Q. injection Q as <-.
            exfalso. apply (no_cycle h W x b P U).
          + exfalso. apply up_split in U. destruct U as [<-|(q & R & U)].
            * rewrite Pa in P. injection P as <-. apply (no_cycle h W b b Q). constructor.
            * rewrite Pa in R. injection R as <-. apply up_split in U. destruct U as [<-|(q & R & U)]; [congruence|].
              rewrite Q in R. injection R as <-. apply (no_cycle h W x c P U).
        - intros O. left. exists a. split; [constructor|]. auto. }
      rewrite X. destruct static; [split; [discriminate|reflexivity]|]. rewrite vcheck_ok, order_iff. tauto.
    - destruct static.
      + rewrite andb_false_r. rewrite IH; [|exact Nb|apply (wf_parent_live h W a ap Pa)|].
        * split; intros [(x & U & P & _)|(St & _)]; try discriminate; left; exists x; (split; [|split; [exact P|discriminate]]).
          -- eapply up_next; eassumption.
          -- apply up_split in U. destruct U as [<-|(q & Q & U)]; congruence.
        * intros k x E. assert (S k < S fuel); [|lia]. apply (F (S k) x). cbn. now rewrite Pa.
      + rewrite andb_true_r, (get_parent_eq h W). destruct (h_parent h b) as [g|] eqn:Pb; [destruct (N.eqb_spec ap g) as [->|Ng]|].
        * assert (X : found (fst s) false b a <-> cfg_op (h_ops h g) /\ dominates h g b a).
          { split.
            - intros [(x & U & P & O)|(_ & x & c & U & P & Q & Ne & G & D)].
              + exfalso. apply up_split in U. destruct U as [<-|(q & Q & U)]; [congruence|]. rewrite Pa in Q. injection Q as <-.
                apply (no_cycle h W b g Pb). eapply up_trans; [exact U|]. eapply up_next; [exact P|constructor].
              + assert (c = g) by congruence. subst c. apply up_split in U. destruct U as [<-|(q & R & U)]; [auto|].
                rewrite Pa in R. injection R as <-. exfalso. apply (no_cycle h W x g P U).
            - intros [G D]. right. split; [reflexivity|]. exists a, g. repeat (split; [first [assumption|reflexivity|constructor]|]). auto. }
          rewrite X. destruct (tag_eqb (op_tag (h_ops h g)) TCfg) eqn:T; cbn [negb].
          -- destruct (dominated_iff h W g b a) as (v & Ev & Hv); [now apply (wf_kids h W)|]. rewrite Ev, vcheck_ok, Hv.
             split; [|tauto]. intros D. split; [|exact D]. apply tag_eqb_iff in T. destruct (h_ops h g); try discriminate. now eexists.
          -- split; [discriminate|]. intros [(g' & G) _]. rewrite G in T. discriminate.
        * rewrite IH; [|exact Nb|apply (wf_parent_live h W a ap Pa)|].
          -- split.
             ++ intros [(x & U & P & O)|(St & x & c & U & P)]; [left; exists x|right; split; [exact St|]; exists x, c];
                  (split; [eapply up_next; eassumption|auto]).
             ++ intros [(x & U & P & O)|(St & x & c & U & P & Q & R)]; [left; exists x|right; split; [exact St|]; exists x, c];
                  (split; [|auto]); (apply up_split in U; destruct U as [<-|(q & Q' & U)]; congruence).
          -- intros k x E. assert (S k < S fuel); [|lia]. apply (F (S k) x). cbn. now rewrite Pa.
        * rewrite IH; [|exact Nb|apply (wf_parent_live h W a ap Pa)|].
          -- split.
             ++ intros [(x & U & P & O)|(St & x & c & U & P)]; [left; exists x|right; split; [exact St|]; exists x, c];
                  (split; [eapply up_next; eassumption|auto]).
             ++ intros [(x & U & P & O)|(St & x & c & U & P & Q & R)]; [left; exists x|right; split; [exact St|]; exists x, c];
                  (split; [|auto]); (apply up_split in U; destruct U as [<-|(q & Q' & U)]; congruence).
          -- intros k x E. assert (S k < S fuel); [|lia]. apply (F (S k) x). cbn. now rewrite Pa.
  Qed.
  Lemma up_last : forall n a, up (h_parent h) n a -> n = a \/ exists x, up (h_parent h) n x /\ h_parent h x = Some a.
  Proof.
    intros n a U. induction U as [n|n p a E U IH]; [now left|]. right. destruct IH as [->|(x & V & F)].
    - exists n. split; [constructor|exact E].
    - exists x. split; [eapply up_next; eassumption|exact F].
  Qed.

  Lemma copyable_iff : forall t, copyable t = true <-> lub t = Copyable.
  Proof. intros t. unfold copyable. destruct (lub t); cbn; split; congruence. Qed.

  Lemma validate_edge_iff : forall a i b j k, In a (h_nodes h) -> In b (h_nodes h) -> port_kind (h_ops h a) Out i = Some k ->
    validate_edge h (a, i) (b, j) = VOk <-> local_edge h k a b.
  Proof.
    intros a i b j k Ia Ib K. unfold validate_edge. cbn [fst snd]. rewrite !(get_parent_eq h W), K.
    destruct (h_parent h a) as [p|] eqn:Pa.
    2:{ split; [discriminate|]. intros L. destruct L; congruence. }
    destruct (h_parent h b) as [q|] eqn:Pb; [destruct (N.eqb_spec p q) as [<-|Ne]|].
    - split; [|reflexivity]. intros _. now apply (le_sibling h k a b p).
    - rewrite vseq_ok, vcheck_ok, climb_iff; [|congruence|apply (wf_parent_live h W b q Pb)|].
      2:{ intros n x E. eapply (hops_bound (h_parent h) (h_root h)); [apply (wf_top h W)|apply (wf_parent h W)| | |exact E];
            [|apply (wf_reach h W)]; apply (wf_parent_live h W b q Pb). }
      split.
      + intros [V [(x & U & P & O)|(St & x & c & U & P & Q & Nx & (g & G) & D)]].
        * assert (Nd : b <> x) by (intros ->; apply (no_cycle h W x q Pb U)).
          destruct (k_static k) eqn:S.
          -- apply (le_static h k a b p); [destruct k; try discriminate; eauto|exact Pa| |].
             ++ eapply up_next; [exact Pb|]. eapply up_trans; [exact U|]. eapply up_next; [exact P|constructor].
             ++ intros ->. apply (no_cycle h W p q Pb). eapply up_trans; [exact U|]. eapply up_next; [exact P|constructor].
          -- cbn [orb] in V. destruct k as [|t|t|f|]; try discriminate. apply copyable_iff in V.
             apply (le_external h _ a b t p x); [reflexivity|exact V|exact Pa|exact P|eapply up_next; eassumption|exact Nd|exact (O eq_refl)].
        * rewrite St in V. cbn [orb] in V. destruct k as [|t|t|f|]; try discriminate. apply copyable_iff in V.
          apply (le_dominator h _ a b t p c g x); auto.
          -- eapply up_next; eassumption.
          -- intros ->. apply (no_cycle h W x q Pb U).
      + intros L. destruct L as [p' A B|p' S A B D|t p' x S V A B D Nd O|t b' c g x S V A B G X D Nd Nx Do].
        * congruence.
        * rewrite Pa in A. injection A as <-. split; [destruct S as [(t & ->)|(f & ->)]; reflexivity|].
          apply up_split in B. destruct B as [|(q' & Q & U)]; [congruence|]. rewrite Pb in Q. injection Q as <-.
          apply up_last in U. destruct U as [|(x & U & X)]; [congruence|]. left. exists x. split; [exact U|]. split; [exact X|].
          intros F. destruct S as [(t & ->)|(f & ->)]; discriminate.
        * rewrite Pa in A. injection A as <-. subst k. split; [cbn; now apply copyable_iff|].
          apply up_split in D. destruct D as [|(q' & Q & U)]; [congruence|]. rewrite Pb in Q. injection Q as <-.
          left. exists x. split; [exact U|]. split; [exact B|]. auto.
        * rewrite Pa in A. injection A as <-. subst k. split; [cbn; now apply copyable_iff|].
          apply up_split in D. destruct D as [|(q' & Q & U)]; [congruence|]. rewrite Pb in Q. injection Q as <-.
          right. split; [reflexivity|]. exists x, c. repeat (split; [first [assumption|congruence]|]). split; [now exists g|exact Do].
    - split.
      + intros E. apply vseq_ok in E. destruct E as [_ E]. discriminate.
      + intros L. exfalso. assert (Nu : forall x, up (h_parent h) b x -> b = x).
        { intros x U. apply up_split in U. destruct U as [|(q & Q & _)]; congruence. }
        destruct L as [p' A B|p' S A B D|t p' x S V A B D Nd O|t b' c g x S V A B G X D Nd Nx Do]; try congruence; auto.
  Qed.

  (** ** Ports *)
  Lemma linked_in : forall n i d, In d (linked_inputs h n i) <-> In ((n, i), d) (h_links h).
  Proof.
    intros n i d. unfold linked_inputs. rewrite in_map_iff. split.
    - intros ([s t] & E & I). cbn in E. subst t. apply filter_In in I. destruct I as [I B]. cbn in B. apply ep_eqb_iff in B. now subst.
    - intros I. exists ((n, i), d). split; [reflexivity|]. apply filter_In. split; [exact I|]. cbn. now apply ep_eqb_iff.
  Qed.

  Lemma validate_links_iff : forall n i k u ls c, (u = true -> c <= 1) ->
    validate_links h n i k u c ls = VOk <-> (u = true -> c + length ls <= 1) /\
      forall d, In d ls -> port_kind (h_ops h (fst d)) Inc (snd d) = Some k /\ validate_edge h (n, i) d = VOk.
  Proof.
    intros n i k u. induction ls as [|d ls IH]; intros c Cu; cbn [validate_links length].
    - split; [|reflexivity]. intros _. split; [intros U; specialize (Cu U); lia|]. intros d [].
    - destruct (u && (1 <? S c)) eqn:B.
      + split; [discriminate|]. intros [F _]. apply andb_true_iff in B. destruct B as [U B]. apply Nat.ltb_lt in B. specialize (F U). lia.
      + assert (Cu' : u = true -> S c <= 1).
        { intros ->. cbn [andb] in B. apply Nat.ltb_ge in B. exact B. }
        destruct (port_kind (h_ops h (fst d)) Inc (snd d)) as [k'|] eqn:K.
        * rewrite !vseq_ok, vcheck_ok, kind_eqb_iff, (IH (S c) Cu'). split.
          -- intros (-> & E & F & A). split; [intros U; specialize (F U); lia|]. intros x [<-|I]; [auto|now apply A].
          -- intros [F A]. destruct (A d (or_introl eq_refl)) as [K' E]. split; [congruence|]. split; [exact E|].
             split; [intros U; specialize (F U); lia|]. intros x I. apply A. now right.
        * split; [discriminate|]. intros [_ A]. destruct (A d (or_introl eq_refl)) as [K' _]. congruence.
  Qed.

  Lemma types_ok_iff : forall ds k, validate_port_kind env ds k = true <-> types_ok env ds k.
  Proof.
    intros ds [|t|t|f|]; cbn; try tauto. unfold poly_valid. rewrite andb_true_iff, Forall_app, !Forall_forall, !forallb_forall. tauto.
  Qed.

  Lemma linear_iff : forall k, k_linear k || k_control k = true <-> linear_kind k.
  Proof.
    intros [|t|t|f|]; cbn; try (split; congruence || tauto). rewrite orb_false_r, negb_true_iff. unfold copyable.
    destruct (lub t); cbn; split; congruence.
  Qed.

  Lemma in_port_iff : forall ds n i k, In n (h_nodes h) -> port_kind (h_ops h n) Inc i = Some k ->
    validate_port env h ds n Inc i = VOk <->
    match k with
    | EValue _ | EConst _ => length (in_links h (n, i)) = 1
    | EFunction _ => in_links h (n, i) <> []
    | _ => True
    end.
  Proof.
    intros ds n i k I K. unfold validate_port. rewrite K. rewrite vseq_ok, !vcheck_ok.
    assert (L : length (linked_outputs h n i) = length (in_links h (n, i))) by (unfold linked_outputs, in_links; apply map_length).
    assert (T : tag_eqb (op_tag (h_ops h n)) TCase = false).
    { destruct (h_ops h n); try reflexivity. destruct i; discriminate. }
    rewrite L, T. destruct k; cbn [k_order k_control k_value k_const negb andb orb].
    - tauto.
    - rewrite !negb_true_iff, Nat.eqb_neq, Nat.leb_gt. lia.
    - rewrite !negb_true_iff, Nat.eqb_neq, Nat.leb_gt. lia.
    - rewrite !negb_true_iff, Nat.eqb_neq. rewrite length_zero_iff_nil. tauto.
    - tauto.
  Qed.

  Lemma out_port_iff : forall ds n i k, In n (h_nodes h) -> port_kind (h_ops h n) Out i = Some k ->
    validate_port env h ds n Out i = VOk <->
    (linear_kind k -> length (out_links h (n, i)) = 1) /\ types_ok env ds k /\
    (forall b j, In ((n, i), (b, j)) (h_links h) -> port_kind (h_ops h b) Inc j = Some k /\ local_edge h k n b).
  Proof.
    intros ds n i k I K. unfold validate_port. rewrite K, !vseq_ok, !vcheck_ok, types_ok_iff, validate_links_iff by lia. rewrite <- linear_iff.
    assert (L : length (linked_inputs h n i) = length (out_links h (n, i))) by (unfold linked_inputs, out_links; apply map_length).
    rewrite L. assert (X : (forall d, In d (linked_inputs h n i) ->
        port_kind (h_ops h (fst d)) Inc (snd d) = Some k /\ validate_edge h (n, i) d = VOk) <->
      (forall b j, In ((n, i), (b, j)) (h_links h) -> port_kind (h_ops h b) Inc j = Some k /\ local_edge h k n b)).
    { split.
      - intros A b j Ib. destruct (A (b, j)) as [P E]; [now apply linked_in|]. split; [exact P|].
        destruct (wf_links h W _ Ib) as [_ [Lb _]]. apply (validate_edge_iff n i b j k I Lb K). exact E.
      - intros A [b j] Ib. apply linked_in in Ib. destruct (A b j Ib) as [P E]. split; [exact P|].
        destruct (wf_links h W _ Ib) as [_ [Lb _]]. apply (validate_edge_iff n i b j k I Lb K). exact E. }
    rewrite X. destruct (k_linear k || k_control k); cbn [andb negb].
    - rewrite negb_true_iff, Nat.eqb_neq. split.
      + intros (A & B & D & E). split; [|auto]. intros _. specialize (D eq_refl). lia.
      + intros (A & B & E). specialize (A eq_refl). repeat (split; [first [assumption|lia]|]). exact E.
    - split.
      + intros (A & B & D & E). split; [discriminate|auto].
      + intros (A & B & E). split; [reflexivity|]. split; [exact B|]. split; [discriminate|exact E].
  Qed.

  (** ** Operations and subtrees *)
  Lemma check_terms_iff : forall a b, check_terms a b = true <-> Forall2 (fun a p => check_term a p = true) a b.
  Proof. intros a b. unfold check_terms. apply list_eqb_Forall2. Qed.

  Lemma args_iff : forall ds s args, validate_args env ds s args = true <-> args_ok env ds s args.
  Proof.
    intros ds [ps|st cp|] args; cbn [validate_args args_ok].
    - rewrite andb_true_iff, check_terms_iff, forallb_forall, Forall_forall. tauto.
    - rewrite !andb_true_iff, check_terms_iff, forallb_forall. split.
      + intros [[A B] D]. exists (firstn (length st) args), (skipn (length st) args). destruct (cp (firstn (length st) args)) as [ps|]; [|discriminate].
        apply andb_true_iff in D. rewrite check_terms_iff, forallb_forall in D. exists ps. rewrite !Forall_forall, firstn_skipn. tauto.
      + intros (fx & ot & ps & -> & E & A & B & D & F). assert (L : length fx = length st) by (clear - B; induction B; cbn; congruence). rewrite <- L, firstn_app, firstn_all, Nat.sub_diag, firstn_O, app_nil_r.
        rewrite skipn_app, skipn_all, Nat.sub_diag, skipn_O. cbn [app]. rewrite E. rewrite Forall_forall in A, D.
        repeat split; [exact A|exact B|]. rewrite andb_true_iff, check_terms_iff, forallb_forall. auto.
    - split; [discriminate|tauto].
  Qed.

  Definition vop_ok (ds : list term) (o : op) : Prop := match o with OConst _ _ _ => True | _ => op_ok env defs ds o end.

  Lemma validate_op_iff : forall ds n o, validate_op env defs ds n o = VOk <-> vop_ok ds o.
  Proof.
    assert (X : forall n f args inst, validate_instance env n f args inst = VOk <-> instantiate env f args = TypesModel.Done inst).
    { intros n f args [i u]. unfold validate_instance. destruct (instantiate env f args) as [[x y]| |]; [|split; discriminate|split; discriminate].
      rewrite vcheck_ok, andb_true_iff, !row_eqb_iff. cbn [fst snd]. split; [intros [-> ->]; reflexivity|]. intros E. injection E as -> ->. auto. }
    intros ds n o. unfold vop_ok. destruct o; cbn [validate_op op_ok]; try tauto; try apply X.
    - rewrite vcheck_ok. apply args_iff.
    - split; [discriminate|tauto].
  Qed.

  (** The checks of one node, given the type variables in scope. *)
  Definition checked (ds : list term) (n : N) : Prop :=
    vop_ok ds (h_ops h n) /\
    (forall i k, kind_at h n Inc i k ->
      match k with
      | EValue _ | EConst _ => length (in_links h (n, i)) = 1
      | EFunction _ => in_links h (n, i) <> []
      | _ => True
      end) /\
    (forall i k, kind_at h n Out i k -> (linear_kind k -> length (out_links h (n, i)) = 1) /\ types_ok env ds k /\
      (forall b j, In ((n, i), (b, j)) (h_links h) -> port_kind (h_ops h b) Inc j = Some k /\ local_edge h k n b)).

  Lemma node_checks_iff : forall ds n, In n (h_nodes h) ->
    (validate_op env defs ds n (h_ops h n) = VOk /\ vall (validate_port env h ds n Inc) (seq 0 (h_in h n)) = VOk /\
     vall (validate_port env h ds n Out) (seq 0 (h_out h n)) = VOk) <-> checked ds n.
  Proof.
    intros ds n I. unfold checked. rewrite validate_op_iff, !vall_ok. split.
    - intros (A & B & D). split; [exact A|]. split.
      + intros i k K. apply (kind_at_iff n Inc i k I) in K. destruct K as [L K]. apply (in_port_iff ds n i k I K). apply B. apply in_seq. cbn in L. lia.
      + intros i k K. apply (kind_at_iff n Out i k I) in K. destruct K as [L K]. apply (out_port_iff ds n i k I K). apply D. apply in_seq. cbn in L. lia.
    - intros (A & B & D). split; [exact A|]. split.
      + intros i Li. apply in_seq in Li. destruct (kind_exists n Inc i I) as (k & K); [cbn; lia|]. apply (in_port_iff ds n i k I K).
        apply B. apply (kind_at_iff n Inc i k I). split; [cbn; lia|exact K].
      + intros i Li. apply in_seq in Li. destruct (kind_exists n Out i I) as (k & K); [cbn; lia|]. apply (out_port_iff ds n i k I K).
        apply D. apply (kind_at_iff n Out i k I). split; [cbn; lia|exact K].
  Qed.

  Lemma scope_unique : forall n ds, scope h n ds -> forall ds', scope h n ds' -> ds = ds'.
  Proof.
    intros n ds S. induction S as [|n p name f pub P E|n p ds P E S IH]; intros ds' S'.
    - inversion S' as [|n p name f pub P E|n p ds P E S]; subst; [reflexivity| |]; rewrite (wf_top h W) in P; discriminate.
    - inversion S' as [|n' p' name' f' pub' P' E'|n' p' ds0 P' E' S0]; subst; [rewrite (wf_top h W) in P; discriminate| |].
      + rewrite P in P'. injection P' as <-. rewrite E in E'. now injection E' as <- <- <-.
      + rewrite P in P'. injection P' as <-. now apply E' in E.
    - inversion S' as [|n' p' name' f' pub' P' E'|n' p' ds0 P' E' S0]; subst; [rewrite (wf_top h W) in P; discriminate| |].
      + rewrite P in P'. injection P' as <-. now apply E in E'.
      + rewrite P in P'. injection P' as <-. now apply IH.
  Qed.

  Definition inner_scope (ds : list term) (o : op) : list term := match o with OFuncDefn _ f _ => p_params f | _ => ds end.

  Lemma scope_child : forall n c ds, scope h n ds -> h_parent h c = Some n -> scope h c (inner_scope ds (h_ops h n)).
  Proof.
    intros n c ds S P. destruct (h_ops h n) eqn:E; cbn [inner_scope]; try (apply (scope_other h c n ds P); [intros; congruence|exact S]).
    eapply scope_function; eassumption.
  Qed.

  Lemma scope_exists : forall n, In n (h_nodes h) -> exists ds, scope h n ds.
  Proof.
    intros n I. pose proof (wf_reach h W n I) as U. assert (G : forall r, up (h_parent h) n r -> r = h_root h -> exists ds, scope h n ds).
    { clear U I. intros r U. induction U as [n|n p a E U IH]; intros ->.
      - exists []. constructor.
      - destruct (IH eq_refl) as (ds & S). eexists. eapply scope_child; eassumption. }
    apply (G _ U eq_refl).
  Qed.

  Lemma validate_subtree_iff : forall fuel n ds, In n (h_nodes h) -> scope h n ds ->
    (forall m k, In m (h_nodes h) -> hops (h_parent h) k m = Some n -> k < fuel) ->
    validate_subtree env defs fuel h ds n = VOk <-> forall m ds', below h m n -> scope h m ds' -> checked ds' m.
  Proof.
    induction fuel as [|fuel IH]; intros n ds I Sc F.
    { specialize (F n 0 I eq_refl). lia. }
    cbn [validate_subtree]. rewrite !vseq_ok, (vall_ok (validate_subtree env defs fuel h _)). fold (inner_scope ds (h_ops h n)).
    assert (X : forall c, In c (h_kids h n) -> validate_subtree env defs fuel h (inner_scope ds (h_ops h n)) c = VOk <->
                (forall m ds', below h m c -> scope h m ds' -> checked ds' m)).
    { intros c Ic. apply (wf_kids h W) in Ic. apply IH; [apply (wf_parent_live h W c n Ic)|now apply scope_child|].
      intros m k Im E. assert (S k < S fuel); [|lia]. apply (F m); [exact Im|]. replace (S k) with (k + 1) by lia.
      rewrite (hops_add _ _ _ _ _ E). cbn. now rewrite Ic. }
    split.
    - intros (A & B & D & E) m ds' U S'. destruct (up_last m n U) as [->|(c & V & P)].
      + rewrite (scope_unique n ds' S' ds Sc). apply node_checks_iff; auto.
      + apply (wf_kids h W) in P. apply (X c P); auto.
    - intros A. pose proof (A n ds (up_here _ n) Sc) as Hn. apply node_checks_iff in Hn; [|exact I]. destruct Hn as (B & D & E).
      repeat (split; [assumption|]). intros c Ic. apply (X c Ic). intros m ds' U S'. apply A; [|exact S'].
      eapply up_trans; [exact U|]. eapply up_next; [apply (wf_kids h W); exact Ic|constructor].
  Qed.
End Edges.
