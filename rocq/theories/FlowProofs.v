(** The facts of a run that has stopped describe every execution. *)
From Coq Require Import List Bool NArith Arith Lia.
From Verif Require Import BMap PValModel PValSpec PValProofs PValProps TypesModel GraphModel GraphSpec OpModel DeadModel InlineModel ReplaceModel FlowModel FlowSpec.
Import ListNotations.
Local Notation wf := PValSpec.wf.
Arguments CSum {V N A}. Arguments CVal {V N A}. Arguments CFun {V N A}.

(** ** Lists *)
Lemma concat_some_in {A} (l : list (option (list A))) : forall fs, concat_some l = Some fs ->
  forall x, In x l -> exists a, x = Some a /\ incl a fs.
Proof.
  induction l as [|x l IH]; intros fs H y Hy; [destruct Hy|]. cbn in H. destruct x as [a|]; [|discriminate].
  destruct (concat_some l) as [b|] eqn:E; [|discriminate]. injection H as <-.
  destruct Hy as [<-|Hy].
  - exists a. split; [reflexivity|]. intros z Hz. apply in_or_app. auto.
  - destruct (IH b eq_refl y Hy) as (a' & -> & Hi). exists a'. split; [reflexivity|]. intros z Hz. apply in_or_app. auto.
Qed.
Lemma concat_some_elem {A} (l : list (option (list A))) : forall fs, concat_some l = Some fs ->
  forall z, In z fs -> exists a, In (Some a) l /\ In z a.
Proof.
  induction l as [|x l IH]; intros fs H z Hz; cbn in H; [injection H as <-; destruct Hz|].
  destruct x as [a|]; [|discriminate]. destruct (concat_some l) as [b|] eqn:E; [|discriminate]. injection H as <-.
  apply in_app_or in Hz as [Hz|Hz]; [exists a; cbn; auto|].
  destruct (IH b eq_refl z Hz) as (a' & Hi & Ha). exists a'. cbn. auto.
Qed.
Lemma opt_flat_in {A B} (f : A -> option (list B)) l fs x : opt_flat f l = Some fs -> In x l ->
  exists a, f x = Some a /\ incl a fs.
Proof. intros H Hx. apply (concat_some_in _ _ H). apply in_map. exact Hx. Qed.
Lemma opt_flat_elem {A B} (f : A -> option (list B)) l fs z : opt_flat f l = Some fs -> In z fs ->
  exists x a, In x l /\ f x = Some a /\ In z a.
Proof.
  intros H Hz. destruct (concat_some_elem _ _ H z Hz) as (a & Hi & Ha). apply in_map_iff in Hi as (x & E & Hx). eauto.
Qed.
Lemma enumerate_from {A} (l : list A) : forall k i x, nth_error l i = Some x <-> In (k + i, x) (combine (seq k (length l)) l).
Proof.
  induction l as [|a l IH]; intros k i x; cbn.
  - destruct i; cbn; split; (discriminate || tauto).
  - destruct i as [|i]; cbn.
    + split; [intros [= ->]; left; f_equal; lia|]. intros [H|H]; [injection H as _ ->; reflexivity|].
      exfalso. apply in_combine_l in H. apply in_seq in H. lia.
    + rewrite (IH (S k) i x). replace (S k + i) with (k + S i) by lia. split; [tauto|].
      intros [H|H]; [injection H as H _; lia|assumption].
Qed.
Lemma enumerate_in {A} (l : list A) i x : In (i, x) (enumerate l) <-> nth_error l i = Some x.
Proof. rewrite (enumerate_from l 0 i x). reflexivity. Qed.
Lemma set_nth_len {A} (l : list A) : forall i x, length (set_nth i x l) = length l.
Proof. induction l as [|a l IH]; intros [|i] x; cbn; congruence. Qed.
Lemma set_nth_same {A} (l : list A) : forall i x, i < length l -> nth_error (set_nth i x l) i = Some x.
Proof. induction l as [|a l IH]; intros [|i] x H; cbn in *; try lia; [reflexivity|]. apply IH. lia. Qed.
Lemma set_nth_in {A} (l : list A) : forall i x y, In y (set_nth i x l) -> y = x \/ In y l.
Proof.
  induction l as [|a l IH]; intros [|i] x y H; cbn in *; try tauto; [destruct H; auto|].
  destruct H as [H|H]; auto. destruct (IH _ _ _ H); auto.
Qed.
Lemma nth_in_F2 {A B} (R : A -> B -> Prop) : forall (l : list A) (r : list B), length l = length r ->
  (forall i a b, nth_error l i = Some a -> nth_error r i = Some b -> R a b) -> Forall2 R l r.
Proof.
  induction l as [|a l IH]; intros [|b r] HL H; try discriminate; constructor.
  - apply (H 0); reflexivity.
  - apply IH; [cbn in HL; lia|]. intros i x y Hx Hy. apply (H (S i)); assumption.
Qed.
Lemma F2_nth {A B} (R : A -> B -> Prop) (l : list A) (r : list B) : Forall2 R l r -> forall i b, nth_error r i = Some b ->
  exists a, nth_error l i = Some a /\ R a b.
Proof.
  induction 1; intros [|i] b; cbn; try discriminate; [intros [= <-]; eauto|apply IHForall2].
Qed.

Lemma F2_len {A B} (R : A -> B -> Prop) (l : list A) (r : list B) : Forall2 R l r -> length l = length r.
Proof. induction 1; cbn; congruence. Qed.

Section Proofs.
  Context {W V E F M : Type}.
  Variable veq : forall a b : V, {a = b} + {a <> b}.
  Notation conc := (conc W N unit).
  Notation pv := (pv V N unit).
  Notation hugr := (hugr op M).
  Notation facts := (@facts V).
  Notation join := (PValModel.join veq N.eq_dec).
  Variable meaning : V -> W.
  Variable sem : @semantics W E F.
  Variable ctx : @context V E F.
  Variable h : hugr.
  Variable proto : list (N * nat * pv).
  Notation allows := (allows meaning).

  (** ** Abstract values *)
  Lemma args_trivial (x : pv) : args_by_node (fun _ => tt) x.
  Proof.
    induction x as [| |v|n []|m IH] using pv_ind'; try constructor. intros k r v. apply IH.
  Qed.
  Lemma join_ok (x y : pv) : wf x -> wf y -> wf (fst (join y x)) /\ le x (fst (join y x)) /\ le y (fst (join y x)) /\
    (snd (join y x) = false -> fst (join y x) = x).
  Proof.
    intros Wx Wy. destruct (join_facts veq N.eq_dec (fun _ => tt) y x Wx Wy (args_trivial x) (args_trivial y)) as (A & _ & (B & C & _) & D).
    repeat split; try assumption. apply D.
  Qed.
  Lemma row_join_ok (self other : list pv) : Forall wf self -> Forall wf other -> forall r c,
    row_join veq N.eq_dec other self = Some (r, c) ->
    Forall wf r /\ Forall2 le self r /\ Forall2 le other r /\ (c = false -> r = self).
  Proof.
    unfold row_join. revert other. induction self as [|a self IH]; intros [|b other] Ws Wo r c; cbn; try discriminate.
    - intros [= <- <-]. repeat split; constructor.
    - destruct (row_op _ other self) as [[r' c']|] eqn:Er; [|discriminate].
      inversion Ws; subst. inversion Wo; subst.
      destruct (join_ok a b) as (J1 & J2 & J3 & J4); [assumption|assumption|].
      destruct (join b a) as [e c2]. cbn in *. intros [= <- <-].
      destruct (IH other) with (r := r') (c := c') as (I1 & I2 & I3 & I4); [assumption|assumption|exact Er|].
      split; [constructor; assumption|]. split; [constructor; assumption|]. split; [constructor; assumption|].
      intros Hc. apply orb_false_iff in Hc as [-> ->]. rewrite J4, I4; reflexivity.
  Qed.

  Lemma allows_le x : forall (y : pv) c, le x y -> allows x c -> allows y c.
  Proof.
    induction x as [| |v|n a|m IH] using pv_ind'; intros y c L H.
    - inversion H.
    - inversion L; subst. constructor.
    - inversion L; subst; [constructor|assumption].
    - inversion L; subst; [constructor|assumption].
    - inversion L as [|?| | |m1 m2 Hm]; subst; [constructor|].
      inversion H as [| | |m' k r cs Hin HF]; subst. destruct (Hm k r Hin) as (r2 & Hin2 & HL).
      econstructor; [exact Hin2|]. assert (IH' : forall v, In v r -> forall y c, le v y -> allows v c -> allows y c) by (intros v Hv; exact (IH k r v Hin Hv)).
      clear - HF HL IH'. revert r2 HL. induction HF as [|v c r cs Hv HF IHF]; intros r2 HL; inversion HL; subst; constructor.
      + eapply IH'; [left; reflexivity|eassumption|assumption].
      + apply IHF; [intros v' Hv'; apply IH'; right; assumption|assumption].
  Qed.
  Lemma allows_row_le (r1 r2 : list pv) cs : Forall2 le r1 r2 -> Forall2 allows r1 cs -> Forall2 allows r2 cs.
  Proof.
    intros HL. revert cs. induction HL; intros cs HF; inversion HF; subst; constructor; [eapply allows_le; eassumption|auto].
  Qed.
  Lemma allows_no_bottom (x : pv) : forall c, allows x c -> contains_bottom x = false.
  Proof.
    induction x as [| |v|n a|m IH] using pv_ind'; intros c H; try reflexivity; [inversion H|].
    inversion H as [| | |m' k r cs Hin HF]; subst. cbn.
    assert (IH' : forall v, In v r -> forall c, allows v c -> contains_bottom v = false) by (intros v Hv; exact (IH k r v Hin Hv)).
    assert (Hr : (fix any (r : list pv) : bool := match r with [] => false | v :: r' => contains_bottom v || any r' end) r = false).
    { clear - HF IH'. induction HF as [|v c r cs Hv HF IHF]; [reflexivity|]. rewrite (IH' v (or_introl eq_refl) c Hv). cbn.
      apply IHF. intros v' Hv'. apply IH'. right. assumption. }
    clear - Hin Hr. induction m as [|[k' r'] m IHm]; [destruct Hin|]. destruct Hin as [[= -> ->]|Hin].
    - rewrite Hr. reflexivity.
    - rewrite IHm by assumption. apply andb_false_r.
  Qed.
  Lemma row_no_bottom (r : list pv) cs : Forall2 allows r cs -> row_contains_bottom r = false.
  Proof. induction 1 as [|v c r cs Hv HF IHF]; cbn; [reflexivity|]. rewrite (allows_no_bottom _ _ Hv). exact IHF. Qed.
  Lemma variant_allows (x : pv) k cs len : wf x -> allows x (CSum k cs) -> length cs = len ->
    match variant_values x k len with
    | inl _ => False
    | inr None => False
    | inr (Some vs) => Forall2 allows vs cs
    end.
  Proof.
    intros Wx H HL. inversion H as [| | |m k' r cs' Hin HF]; subst; cbn.
    - clear. induction cs; cbn; constructor; [constructor|assumption].
    - apply wf_inv in Wx as (_ & S & _). apply (get_In _ _ _ S) in Hin. rewrite Hin.
      rewrite (F2_len _ _ _ HF), Nat.eqb_refl. assumption.
  Qed.
  Lemma unpack_allows (row : list pv) k cs rest len : Forall wf row -> Forall2 allows row (CSum k cs :: rest) -> length cs = len ->
    exists vs, unpack_first row k len = inr (Some vs) /\ Forall2 allows vs (cs ++ rest).
  Proof.
    intros Wr H HL. inversion H as [|x c r' cs' Hx HF]; subst. inversion Wr; subst. cbn.
    pose proof (variant_allows x k cs (length cs) ltac:(assumption) Hx eq_refl) as Hv.
    destruct (variant_values x k (length cs)) as [[]|[vs|]]; try contradiction.
    exists (vs ++ r'). split; [reflexivity|]. apply Forall2_app; assumption.
  Qed.
  Lemma supports_allows (x : pv) k cs : wf x -> allows x (CSum k cs) -> supports_tag x k = true.
  Proof.
    intros Wx H. inversion H as [| | |m k' r cs' Hin HF]; subst; cbn; [reflexivity|].
    apply wf_inv in Wx as (_ & S & _). apply (get_In _ _ _ S) in Hin. rewrite Hin. reflexivity.
  Qed.
  Lemma variant_wf (x : pv) k len vs : wf x -> variant_values x k len = inr (Some vs) -> Forall wf vs.
  Proof.
    intros Wx. destruct x as [|n a|v|m|]; cbn; try discriminate.
    - apply wf_inv in Wx as (_ & S & Hw). destruct (bm_get N.compare k m) as [r|] eqn:G; [|discriminate].
      destruct (length r =? len); [|discriminate]. intros [= <-]. apply Forall_forall. intros v Hv.
      eapply Hw; [apply (get_In _ _ _ S); exact G|exact Hv].
    - intros [= <-]. apply Forall_forall. intros v Hv. apply repeat_spec in Hv. subst. constructor.
  Qed.
  Lemma unpack_wf (row : list pv) k len vs : Forall wf row -> unpack_first row k len = inr (Some vs) -> Forall wf vs.
  Proof.
    destruct row as [|x row]; cbn; [discriminate|]. intros Wr. inversion Wr; subst.
    destruct (variant_values x k len) as [e|[r|]] eqn:Ev; try discriminate. intros [= <-].
    apply Forall_app. split; [eapply variant_wf; eassumption|assumption].
  Qed.
  Lemma single_wf k (vs : list pv) : Forall wf vs -> wf (PSum [(k, vs)]).
  Proof.
    intros H. constructor; [discriminate|repeat constructor|]. intros k' r v [[= <- <-]|[]] Hv. rewrite Forall_forall in H. auto.
  Qed.

  Fixpoint size_of (c : value E F) : nat :=
    match c with KSum _ vs => S ((fix each (vs : list (value E F)) : nat := match vs with [] => 0 | v :: vs => size_of v + each vs end) vs) | _ => 1 end.
  Section ValueInd.
    Variable P : value E F -> Prop.
    Hypothesis HS : forall t vs, Forall P vs -> P (KSum t vs).
    Hypothesis HE : forall e, P (KExt e).
    Hypothesis HF : forall f, P (KFun f).
    Fixpoint value_ind' (c : value E F) : P c :=
      match c with
      | KSum t vs => HS t vs ((fix each (vs : list (value E F)) : Forall P vs :=
                                 match vs with [] => Forall_nil _ | v :: vs => Forall_cons _ (value_ind' v) (each vs) end) vs)
      | KExt e => HE e
      | KFun f => HF f
      end.
  End ValueInd.

  Lemma const_wf (c : value E F) : forall loc, wf (partial_from_const ctx loc c).
  Proof.
    induction c as [t vs IH|e|f] using value_ind'; intros loc; cbn.
    - apply single_wf. generalize 0. induction IH as [|v vs Hv IH' IHvs]; intros i; constructor; [apply Hv|apply IHvs].
    - destruct (from_opaque _ _ _); constructor.
    - destruct (from_hugr _ _ _); constructor.
  Qed.

  Lemma const_allows : loads_ok meaning sem ctx -> forall (c : value E F) loc, allows (partial_from_const ctx loc c) (const_value sem c).
  Proof.
    intros [LE LF]. induction c as [t vs IH|e|f] using value_ind'; intros loc; cbn.
    - econstructor; [left; reflexivity|]. generalize 0. induction IH as [|v vs Hv IH' IHvs]; intros i; constructor; [apply Hv|apply IHvs].
    - destruct (from_opaque _ _ _) eqn:El; [rewrite <- (LE _ _ _ El)|]; constructor.
    - destruct (from_hugr _ _ _) eqn:El; [rewrite <- (LF _ _ _ El)|]; constructor.
  Qed.

  (** ** Facts *)
  Definition wf_fact (f : @fact V) : Prop :=
    match f with FOut _ _ v | FIn _ _ v => wf v | FRow _ vs => Forall wf vs | _ => True end.
  Record wf_facts (s : facts) : Prop := {
    wfo : forall n p v, f_out s n p = Some v -> wf v;
    wfi : forall n p v, f_in s n p = Some v -> wf v;
    wfr : forall n vs, f_row s n = Some vs -> Forall wf vs }.

  Lemma upd2_spec {X} (f : N -> nat -> option X) n p x m q : upd2 f n p x m q = Some x /\ m = n /\ q = p \/ upd2 f n p x m q = f m q /\ ~ (m = n /\ q = p).
  Proof.
    unfold upd2. destruct (N.eqb_spec m n), (Nat.eqb_spec q p); cbn; subst; auto; right; split; try reflexivity; intros [? ?]; congruence.
  Qed.

  (** What is known only grows. *)
  Record below (a b : facts) : Prop := {
    b_in : forall n p x, f_in a n p = Some x -> exists y, f_in b n p = Some y /\ le x y }.
  Lemma below_refl a : below a a.
  Proof. constructor. intros n p x H. exists x. split; [assumption|apply le_refl]. Qed.
  Lemma below_trans a b c : below a b -> below b c -> below a c.
  Proof.
    intros [H1] [H2]. constructor. intros n p x H. destruct (H1 n p x H) as (y & Hy & L1). destruct (H2 n p y Hy) as (z & Hz & L2).
    exists z. split; [assumption|eapply le_trans; eassumption].
  Qed.

  Lemma add_fact_ok (s : facts) f s' c : wf_facts s -> wf_fact f -> add_fact veq s f = Some (s', c) -> wf_facts s' /\ below s s'.
  Proof.
    intros Ws Wf H. destruct f as [n p v|n p v|n vs|a b|a b|n t]; cbn in H, Wf.
    - assert (Hx : forall x c, match f_out s n p with None => (v, true) | Some x => join v x end = (x, c) -> wf x).
      { intros x c' Hx. destruct (f_out s n p) as [x0|] eqn:Ex; [|injection Hx as <- _; assumption].
        destruct (join_ok x0 v) as (J & _); [eapply wfo; eassumption|assumption|]. rewrite Hx in J. exact J. }
      destruct (match f_out s n p with None => _ | Some x => _ end) as [x c'] eqn:Ex. injection H as <- _.
      specialize (Hx x c' eq_refl). split; [|constructor; intros; eexists; split; [eassumption|apply le_refl]].
      constructor; cbn; [|apply (wfi _ Ws)|apply (wfr _ Ws)]. intros m q w Hw.
      destruct (upd2_spec (f_out s) n p x m q) as [(E1 & _ & _)|(E1 & _)]; rewrite E1 in Hw; [injection Hw as <-; assumption|eapply wfo; eassumption].
    - assert (Hx : forall x c, match f_in s n p with None => (v, true) | Some x => join v x end = (x, c) -> wf x /\ forall x0, f_in s n p = Some x0 -> le x0 x).
      { intros x c' Hx. destruct (f_in s n p) as [x0|] eqn:Ex; [|injection Hx as <- _; split; [assumption|discriminate]].
        destruct (join_ok x0 v) as (J & J2 & _); [eapply wfi; eassumption|assumption|]. rewrite Hx in J, J2. split; [exact J|]. intros ? [= <-]. exact J2. }
      destruct (match f_in s n p with None => _ | Some x => _ end) as [x c'] eqn:Ex. injection H as <- _.
      destruct (Hx x c' eq_refl) as [Wx Lx]. split.
      + constructor; cbn; [apply (wfo _ Ws)| |apply (wfr _ Ws)]. intros m q w Hw.
        destruct (upd2_spec (f_in s) n p x m q) as [(E1 & _ & _)|(E1 & _)]; rewrite E1 in Hw; [injection Hw as <-; assumption|eapply wfi; eassumption].
      + constructor. cbn. intros m q w Hw. destruct (upd2_spec (f_in s) n p x m q) as [(E1 & -> & ->)|(E1 & _)]; rewrite E1.
        * exists x. split; [reflexivity|]. apply Lx. assumption.
        * exists w. split; [assumption|apply le_refl].
    - destruct (match f_row s n with None => _ | Some r => _ end) as [[r c']|] eqn:Er; [|discriminate]. injection H as <- _.
      assert (Wr : Forall wf r).
      { destruct (f_row s n) as [r0|] eqn:E0; [|injection Er as <- _; assumption].
        eapply (row_join_ok r0 vs); [eapply wfr; eassumption|assumption|eassumption]. }
      split; [|constructor; intros; eexists; split; [eassumption|apply le_refl]].
      constructor; cbn; [apply (wfo _ Ws)|apply (wfi _ Ws)|]. intros m w. unfold upd. destruct (N.eqb m n); [intros [= <-]; assumption|apply (wfr _ Ws)].
    - destruct (existsb _ _); injection H as <- _; (split; [|constructor; intros; eexists; split; [eassumption|apply le_refl]]).
      + assumption.
      + constructor; cbn; apply Ws.
    - destruct (existsb _ _); injection H as <- _; (split; [|constructor; intros; eexists; split; [eassumption|apply le_refl]]).
      + assumption.
      + constructor; cbn; apply Ws.
    - destruct (match f_callee s n with None => _ | Some x => _ end) as [x c']. injection H as <- _.
      split; [|constructor; intros; eexists; split; [eassumption|apply le_refl]]. constructor; cbn; apply Ws.
  Qed.

  (** ** Derived facts are well formed *)
  Definition proto_wf : Prop := forall n p v, In (n, p, v) proto -> wf v.

  Lemma in_facts_in (s : facts) n p v : In (p, v) (in_facts h s n) <-> f_in s n p = Some v /\ p < in_count h n.
  Proof.
    unfold in_facts. rewrite in_flat_map. split.
    - intros (q & Hq & Hin). apply in_seq in Hq. destruct (f_in s n q) eqn:Ef; [|destruct Hin]. destruct Hin as [[= <- <-]|[]]. split; [assumption|lia].
    - intros [Hf Hp]. exists p. split; [apply in_seq; lia|]. rewrite Hf. left. reflexivity.
  Qed.
  Lemma pass_wf (s : facts) n m f : wf_facts s -> In f (pass m (in_facts h s n)) -> wf_fact f.
  Proof.
    intros Ws Hf. unfold pass in Hf. apply in_map_iff in Hf as ([p v] & <- & Hin). apply in_facts_in in Hin as [Hin _]. cbn. eapply wfi; eassumption.
  Qed.
  Lemma row_facts_wf n vs f : Forall wf vs -> In f (row_facts n vs) -> wf_fact f.
  Proof.
    intros Wv Hf. unfold row_facts in Hf. apply in_map_iff in Hf as ([p v] & <- & Hin). apply enumerate_in in Hin. apply nth_error_In in Hin. cbn.
    rewrite Forall_forall in Wv. auto.
  Qed.
  Lemma unpacked_wf d row k len l f : Forall wf row -> unpacked d row k len = Some l -> In f l -> wf_fact f.
  Proof.
    unfold unpacked. intros Wr H Hf. destruct (unpack_first row (N.of_nat k) len) as [e|[vs|]] eqn:Eu; try discriminate; injection H as <-; [|destruct Hf].
    eapply row_facts_wf; [eapply unpack_wf; eassumption|eassumption].
  Qed.
  Lemma bottoms_wf n : Forall wf (repeat (Bottom : pv) n).
  Proof. apply Forall_forall. intros v Hv. apply repeat_spec in Hv. subst. constructor. Qed.
  Lemma tops_wf n : Forall wf (repeat (Top : pv) n).
  Proof. apply Forall_forall. intros v Hv. apply repeat_spec in Hv. subst. constructor. Qed.

  Lemma on_nodes_elem (g : N -> list (@fact V)) fs f : on_nodes h g = Some fs -> In f fs -> exists n, In n (h_nodes h) /\ In f (g n).
  Proof. intros [= <-] Hf. apply in_flat_map in Hf. exact Hf. Qed.
  Lemma on_nodes_in (g : N -> list (@fact V)) fs n : on_nodes h g = Some fs -> In n (h_nodes h) -> incl (g n) fs.
  Proof. intros [= <-] Hn f Hf. apply in_flat_map. eauto. Qed.

  Lemma leaf_wf n ins k outs : interpret_wf ctx -> Forall wf ins -> propagate_leaf_op ctx h n ins k = LOuts outs -> Forall wf outs.
  Proof.
    intros HI Wi. unfold propagate_leaf_op. destruct (h_ops h n) as [|nm f pu|nm f pu|nm b|nm t|v t okk|r|r|f a i|g|t|f a i|g|e nm a g|e nm a g|t vs|i oo rows|co|ji jo r|g|rows oi ou|g]; try discriminate.
    - destruct ins; [|discriminate]. destruct (single_linked_output h n 0); [|discriminate]. destruct (h_ops h _); try discriminate.
      intros [= <-]. constructor; [apply const_wf|constructor].
    - destruct ins; [|discriminate]. destruct (single_linked_output h n 0); [|discriminate]. intros [= <-]. repeat constructor.
    - destruct (tuple_kind ctx e nm) as [[]|].
      + intros [= <-]. constructor; [apply single_wf; assumption|constructor].
      + destruct ins as [|x [|]]; try discriminate. destruct (variant_values x 0%N (length (snd g))) as [|[r|]] eqn:Ev; try discriminate.
        intros [= <-]. inversion Wi; subst. eapply variant_wf; eassumption.
      + intros [= <-]. destruct (row_contains_bottom ins); [apply bottoms_wf|]. apply HI; [assumption|apply tops_wf].
    - intros [= <-]. constructor; [apply single_wf; assumption|constructor].
  Qed.

  Ltac nodes Hf n := apply (on_nodes_elem _ _ _ eq_refl) in Hf as (n & _ & Hf).
  Lemma derive_wf (s : facts) fs f : interpret_wf ctx -> proto_wf -> wf_facts s -> derive ctx h proto s = Some fs -> In f fs -> wf_fact f.
  Proof.
    intros HI HP Ws HD Hf. unfold derive in HD. destruct (concat_some_elem _ _ HD f Hf) as (a & Ha & Hfa). clear HD Hf fs. rename Hfa into Hf.
    cbn [In] in Ha.
    destruct Ha as [Ha|[Ha|[Ha|[Ha|[Ha|[Ha|[Ha|[Ha|[Ha|[Ha|[Ha|[Ha|[Ha|[Ha|[Ha|[Ha|[Ha|[Ha|[]]]]]]]]]]]]]]]]]]].
    - apply (on_nodes_elem _ _ _ Ha) in Hf as (n & _ & Hf). apply in_map_iff in Hf as (p & <- & _). constructor.
    - apply (on_nodes_elem _ _ _ Ha) in Hf as (n & _ & Hf). apply in_flat_map in Hf as (p & _ & Hf).
      destruct (single_linked_output h n p) as [e|]; [|destruct Hf]. destruct (f_out s (fst e) (snd e)) eqn:Eo; [|destruct Hf].
      destruct Hf as [<-|[]]. cbn. eapply wfo; eassumption.
    - apply (on_nodes_elem _ _ _ Ha) in Hf as (n & _ & Hf). apply in_map_iff in Hf as (p & <- & _). constructor.
    - injection Ha as <-. apply in_flat_map in Hf as ([[n p] v] & Hin & Hf). destruct (_ && _); [|destruct Hf]. destruct Hf as [<-|[]]. cbn. eapply HP; eassumption.
    - apply (on_nodes_elem _ _ _ Ha) in Hf as (n & _ & Hf). destruct (dataflow_signature _); [|destruct Hf]. destruct Hf as [<-|[]]. apply bottoms_wf.
    - apply (on_nodes_elem _ _ _ Ha) in Hf as (n & _ & Hf). apply in_map_iff in Hf as ([p v] & <- & Hin). apply in_facts_in in Hin as [Hin _]. cbn.
      apply Forall_forall. intros x Hx. apply set_nth_in in Hx as [->|Hx]; [eapply wfi; eassumption|]. apply repeat_spec in Hx. subst. constructor.
    - destruct (opt_flat_elem _ _ _ _ Ha Hf) as (n & b & _ & Hb & Hfb). destruct (dataflow_signature (h_ops h n)) as [g|]; [|injection Hb as <-; destruct Hfb].
      destruct (f_row s n) as [vs|] eqn:Er; [|injection Hb as <-; destruct Hfb]. destruct (is_container _); [injection Hb as <-; destruct Hfb|].
      destruct (propagate_leaf_op ctx h n vs (length (snd g))) as [| |outs] eqn:El; [discriminate|injection Hb as <-; destruct Hfb|].
      injection Hb as <-. eapply row_facts_wf; [|exact Hfb]. eapply leaf_wf; [exact HI|eapply wfr; eassumption|exact El].
    - apply (on_nodes_elem _ _ _ Ha) in Hf as (n & _ & Hf). destruct (is_dfg _); [|destruct Hf]. destruct (get_io h n) as [[i o]|]; [|destruct Hf].
      apply in_app_or in Hf as [Hf|Hf]; eapply pass_wf; eassumption.
    - destruct (opt_flat_elem _ _ _ _ Ha Hf) as (n & b & _ & Hb & Hfb). destruct (h_ops h n) as [| | | | | | | | | | | | | | | | | |ji jo r| | |]; try (injection Hb as <-; destruct Hfb; fail).
      destruct (get_io h n) as [[i o]|]; [|injection Hb as <-; destruct Hfb]. destruct (f_row s o) as [row|] eqn:Er.
      + destruct (unpacked i row 0 (length ji)) as [x|] eqn:Ex; [|discriminate]. destruct (unpacked n row 1 (length jo)) as [y|] eqn:Ey; [|discriminate].
        injection Hb as <-. apply in_app_or in Hfb as [Hfb|Hfb]; [eapply pass_wf; eassumption|]. apply in_app_or in Hfb as [Hfb|Hfb]; (eapply unpacked_wf; [eapply wfr; eassumption| |eassumption]; eassumption).
      + injection Hb as <-. eapply pass_wf; eassumption.
    - destruct (opt_flat_elem _ _ _ _ Ha Hf) as (n & b & _ & Hb & Hfb). destruct (h_ops h n) as [| | | | | | | | | | | | | | | | | | | |rows oi ou|]; try (injection Hb as <-; destruct Hfb; fail).
      destruct (opt_flat_elem _ _ _ _ Hb Hfb) as ([k case] & b' & _ & Hb' & Hfb'). destruct (is_case _); [|injection Hb' as <-; destruct Hfb'].
      destruct (get_io h case) as [[i o]|]; [|injection Hb' as <-; destruct Hfb'].
      destruct (match f_row s n with Some row => _ | None => _ end) as [x|] eqn:Ex; [|discriminate]. cbn in Hb'. injection Hb' as <-.
      apply in_app_or in Hfb' as [Hfb'|Hfb'].
      + destruct (f_row s n) as [row|] eqn:Er; [|injection Ex as <-; destruct Hfb']. destruct (nth_error rows k); [|discriminate].
        eapply unpacked_wf; [eapply wfr; eassumption| |eassumption]; eassumption.
      + destruct (existsb _ _); [eapply pass_wf; eassumption|destruct Hfb'].
    - apply (on_nodes_elem _ _ _ Ha) in Hf as (n & _ & Hf). destruct (h_ops h n); try (destruct Hf; fail).
      apply in_flat_map in Hf as ([k case] & _ & Hf). destruct (f_in s n 0); [|destruct Hf]. destruct (_ && _); [|destruct Hf]. destruct Hf as [<-|[]]. exact I.
    - apply (on_nodes_elem _ _ _ Ha) in Hf as (n & _ & Hf). destruct (is_cfg _); [|destruct Hf]. apply in_app_or in Hf as [Hf|Hf].
      + destruct (h_kids h n); [destruct Hf|]. destruct Hf as [<-|[]]. exact I.
      + apply in_flat_map in Hf as (x & _ & Hf). destruct (N.eqb _ _); [|destruct Hf]. destruct (output_child h (snd x)); [|destruct Hf]. destruct (f_in s _ 0); [|destruct Hf].
        apply in_flat_map in Hf as (y & _ & Hf). destruct (supports_tag _ _); [|destruct Hf]. destruct Hf as [<-|[]]. exact I.
    - apply (on_nodes_elem _ _ _ Ha) in Hf as (n & _ & Hf). destruct (is_cfg _); [|destruct Hf]. destruct (h_kids h n); [destruct Hf|]. destruct (input_child h _); [|destruct Hf].
      eapply pass_wf; eassumption.
    - destruct (opt_flat_elem _ _ _ _ Ha Hf) as ([cfg b0] & b & _ & Hb & Hfb). destruct (h_ops h b0) as [| | | | | | | | | | | | | | | |i0 oo rows| | | | |]; try (injection Hb as <-; destruct Hfb; fail).
      destruct (output_child h b0) as [o|]; [|injection Hb as <-; destruct Hfb].
      destruct (opt_flat_elem _ _ _ _ Hb Hfb) as ([k succ] & b' & _ & Hb' & Hfb'). destruct (opt_flat_elem _ _ _ _ Hb' Hfb') as (d & b2 & _ & Hb2 & Hfb2).
      destruct (f_row s o) as [row|] eqn:Er; [|injection Hb2 as <-; destruct Hfb2]. destruct (nth_error rows k); [|discriminate].
      eapply unpacked_wf; [eapply wfr; eassumption| |eassumption]; eassumption.
    - apply (on_nodes_elem _ _ _ Ha) in Hf as (n & _ & Hf). destruct (is_call _); [|destruct Hf]. destruct (static_source h n) as [g|]; [|destruct Hf]. destruct (get_io h g) as [[i o]|]; [|destruct Hf].
      apply in_app_or in Hf as [Hf|Hf]; eapply pass_wf; eassumption.
    - apply (on_nodes_elem _ _ _ Ha) in Hf as (n & _ & Hf). destruct (is_call_indirect _); [|destruct Hf]. destruct (f_in s n 0); [|destruct Hf]. destruct Hf as [<-|[]]. exact I.
    - apply (on_nodes_elem _ _ _ Ha) in Hf as (n & _ & Hf). destruct (f_callee s n) as [[|g|]|]; try (destruct Hf; fail). destruct (get_io h g) as [[i o]|]; [|destruct Hf].
      apply in_app_or in Hf as [Hf|Hf]; [|eapply pass_wf; eassumption]. apply in_flat_map in Hf as ([p v] & Hin & Hf). apply in_facts_in in Hin as [Hin _]. destruct p; cbn in Hf; [destruct Hf|].
      destruct Hf as [<-|[]]. cbn. eapply wfi; eassumption.
    - apply (on_nodes_elem _ _ _ Ha) in Hf as (n & _ & Hf). destruct (h_ops h n); try (destruct Hf; fail). destruct (f_in s n 0) as [[]|]; try (destruct Hf; fail);
      apply in_map_iff in Hf as (p & <- & _); constructor.
  Qed.

  (** ** Runs *)
  Definition target_le (a b : target) : Prop := a = TNone \/ a = b \/ b = TAny.
  Lemma load_mono (x y : pv) : le x y -> target_le (load_func x) (load_func y).
  Proof. intros L. inversion L; subst; cbn; unfold target_le; auto. Qed.

  Record good (s : facts) : Prop := {
    g_wf : wf_facts s;
    g_callee : forall n t, f_callee s n = Some t -> exists v, f_in s n 0 = Some v /\ target_le t (load_func v) }.

  Lemma target_join_le t old : forall bound, target_le t bound -> target_le old bound -> target_le (fst (target_join t old)) bound.
  Proof.
    intros bound H1 H2. unfold target_le in *. destruct t as [|a|], old as [|b|]; cbn; try tauto.
    destruct (N.eqb_spec b a) as [->|Hne]; cbn; [tauto|].
    destruct H1 as [H1|[H1|H1]]; [discriminate| |auto]. destruct H2 as [H2|[H2|H2]]; [discriminate| |auto]. congruence.
  Qed.

  Lemma derive_callee (s : facts) fs n t : derive ctx h proto s = Some fs -> In (FCallee n t) fs ->
    exists v, f_in s n 0 = Some v /\ t = load_func v.
  Proof.
    intros HD Hf. unfold derive in HD. destruct (concat_some_elem _ _ HD _ Hf) as (a & Ha & Hfa). clear HD Hf fs. rename Hfa into Hf. cbn [In] in Ha.
    assert (P1 : forall m l, ~ In (FCallee n t) (pass m l : list (@fact V))) by (intros m l Hin; apply in_map_iff in Hin as (x & Hx & _); discriminate).
    assert (P2 : forall m l, ~ In (FCallee n t) (row_facts m l : list (@fact V))) by (intros m l Hin; apply in_map_iff in Hin as (x & Hx & _); discriminate).
    assert (P3 : forall d row k len l, unpacked (V := V) d row k len = Some l -> ~ In (FCallee n t) l).
    { intros d row k len l Hu Hin. unfold unpacked in Hu. destruct (unpack_first row (N.of_nat k) len) as [|[vs|]]; try discriminate; injection Hu as <-; [exact (P2 _ _ Hin)|destruct Hin]. }
    destruct Ha as [Ha|[Ha|[Ha|[Ha|[Ha|[Ha|[Ha|[Ha|[Ha|[Ha|[Ha|[Ha|[Ha|[Ha|[Ha|[Ha|[Ha|[Ha|[]]]]]]]]]]]]]]]]]]].
    - apply (on_nodes_elem _ _ _ Ha) in Hf as (m & _ & Hf). apply in_map_iff in Hf as (p & Hp & _). discriminate.
    - apply (on_nodes_elem _ _ _ Ha) in Hf as (m & _ & Hf). apply in_flat_map in Hf as (p & _ & Hf).
      destruct (single_linked_output h m p) as [e|]; [|destruct Hf]. destruct (f_out s (fst e) (snd e)); [|destruct Hf]. destruct Hf as [Hf|[]]. discriminate.
    - apply (on_nodes_elem _ _ _ Ha) in Hf as (m & _ & Hf). apply in_map_iff in Hf as (p & Hp & _). discriminate.
    - injection Ha as <-. apply in_flat_map in Hf as ([[m p] v] & Hin & Hf). destruct (_ && _); [|destruct Hf]. destruct Hf as [Hf|[]]. discriminate.
    - apply (on_nodes_elem _ _ _ Ha) in Hf as (m & _ & Hf). destruct (dataflow_signature _); [|destruct Hf]. destruct Hf as [Hf|[]]. discriminate.
    - apply (on_nodes_elem _ _ _ Ha) in Hf as (m & _ & Hf). apply in_map_iff in Hf as ([p v] & Hp & _). discriminate.
    - destruct (opt_flat_elem _ _ _ _ Ha Hf) as (m & b & _ & Hb & Hfb). destruct (dataflow_signature (h_ops h m)) as [g|]; [|injection Hb as <-; destruct Hfb].
      destruct (f_row s m) as [vs|]; [|injection Hb as <-; destruct Hfb]. destruct (is_container _); [injection Hb as <-; destruct Hfb|].
      destruct (propagate_leaf_op ctx h m vs (length (snd g))) as [| |outs]; [discriminate|injection Hb as <-; destruct Hfb|]. injection Hb as <-. destruct (P2 _ _ Hfb).
    - apply (on_nodes_elem _ _ _ Ha) in Hf as (m & _ & Hf). destruct (is_dfg _); [|destruct Hf]. destruct (get_io h m) as [[i o]|]; [|destruct Hf].
      apply in_app_or in Hf as [Hf|Hf]; destruct (P1 _ _ Hf).
    - destruct (opt_flat_elem _ _ _ _ Ha Hf) as (m & b & _ & Hb & Hfb). destruct (h_ops h m) as [| | | | | | | | | | | | | | | | | |ji jo r| | |]; try (injection Hb as <-; destruct Hfb; fail).
      destruct (get_io h m) as [[i o]|]; [|injection Hb as <-; destruct Hfb]. destruct (f_row s o) as [row|].
      + destruct (unpacked i row 0 (length ji)) as [x|] eqn:Ex; [|discriminate]. destruct (unpacked m row 1 (length jo)) as [y|] eqn:Ey; [|discriminate].
        injection Hb as <-. apply in_app_or in Hfb as [Hfb|Hfb]; [destruct (P1 _ _ Hfb)|]. apply in_app_or in Hfb as [Hfb|Hfb]; [destruct (P3 _ _ _ _ _ Ex Hfb)|destruct (P3 _ _ _ _ _ Ey Hfb)].
      + injection Hb as <-. destruct (P1 _ _ Hfb).
    - destruct (opt_flat_elem _ _ _ _ Ha Hf) as (m & b & _ & Hb & Hfb). destruct (h_ops h m) as [| | | | | | | | | | | | | | | | | | | |rows oi ou|]; try (injection Hb as <-; destruct Hfb; fail).
      destruct (opt_flat_elem _ _ _ _ Hb Hfb) as ([k case] & b' & _ & Hb' & Hfb'). destruct (is_case _); [|injection Hb' as <-; destruct Hfb'].
      destruct (get_io h case) as [[i o]|]; [|injection Hb' as <-; destruct Hfb'].
      destruct (match f_row s m with Some row => _ | None => _ end) as [x|] eqn:Ex; [|discriminate]. cbn in Hb'. injection Hb' as <-.
      apply in_app_or in Hfb' as [Hfb'|Hfb'].
      + destruct (f_row s m) as [row|]; [|injection Ex as <-; destruct Hfb']. destruct (nth_error rows k); [|discriminate]. destruct (P3 _ _ _ _ _ Ex Hfb').
      + destruct (existsb _ _); [destruct (P1 _ _ Hfb')|destruct Hfb'].
    - apply (on_nodes_elem _ _ _ Ha) in Hf as (m & _ & Hf). destruct (h_ops h m); try (destruct Hf; fail).
      apply in_flat_map in Hf as ([k case] & _ & Hf). destruct (f_in s m 0); [|destruct Hf]. destruct (_ && _); [|destruct Hf]. destruct Hf as [Hf|[]]. discriminate.
    - apply (on_nodes_elem _ _ _ Ha) in Hf as (m & _ & Hf). destruct (is_cfg _); [|destruct Hf]. apply in_app_or in Hf as [Hf|Hf].
      + destruct (h_kids h m); [destruct Hf|]. destruct Hf as [Hf|[]]. discriminate.
      + apply in_flat_map in Hf as (x & _ & Hf). destruct (N.eqb _ _); [|destruct Hf]. destruct (output_child h (snd x)); [|destruct Hf]. destruct (f_in s _ 0); [|destruct Hf].
        apply in_flat_map in Hf as (y & _ & Hf). destruct (supports_tag _ _); [|destruct Hf]. destruct Hf as [Hf|[]]. discriminate.
    - apply (on_nodes_elem _ _ _ Ha) in Hf as (m & _ & Hf). destruct (is_cfg _); [|destruct Hf]. destruct (h_kids h m); [destruct Hf|]. destruct (input_child h _); [|destruct Hf]. destruct (P1 _ _ Hf).
    - destruct (opt_flat_elem _ _ _ _ Ha Hf) as ([cfg b0] & b & _ & Hb & Hfb). destruct (h_ops h b0) as [| | | | | | | | | | | | | | | |i0 oo rows| | | | |]; try (injection Hb as <-; destruct Hfb; fail).
      destruct (output_child h b0) as [o|]; [|injection Hb as <-; destruct Hfb].
      destruct (opt_flat_elem _ _ _ _ Hb Hfb) as ([k succ] & b' & _ & Hb' & Hfb'). destruct (opt_flat_elem _ _ _ _ Hb' Hfb') as (d & b2 & _ & Hb2 & Hfb2).
      destruct (f_row s o) as [row|]; [|injection Hb2 as <-; destruct Hfb2]. destruct (nth_error rows k); [|discriminate]. destruct (P3 _ _ _ _ _ Hb2 Hfb2).
    - apply (on_nodes_elem _ _ _ Ha) in Hf as (m & _ & Hf). destruct (is_call _); [|destruct Hf]. destruct (static_source h m) as [g|]; [|destruct Hf]. destruct (get_io h g) as [[i o]|]; [|destruct Hf].
      apply in_app_or in Hf as [Hf|Hf]; destruct (P1 _ _ Hf).
    - apply (on_nodes_elem _ _ _ Ha) in Hf as (m & _ & Hf). destruct (is_call_indirect _); [|destruct Hf]. destruct (f_in s m 0) as [v|] eqn:Ev; [|destruct Hf]. destruct Hf as [Hf|[]].
      injection Hf as <- <-. eauto.
    - apply (on_nodes_elem _ _ _ Ha) in Hf as (m & _ & Hf). destruct (f_callee s m) as [[|g|]|]; try (destruct Hf; fail). destruct (get_io h g) as [[i o]|]; [|destruct Hf].
      apply in_app_or in Hf as [Hf|Hf]; [|destruct (P1 _ _ Hf)]. apply in_flat_map in Hf as ([p v] & _ & Hf). destruct p; cbn in Hf; [destruct Hf|]. destruct Hf as [Hf|[]]. discriminate.
    - apply (on_nodes_elem _ _ _ Ha) in Hf as (m & _ & Hf). destruct (h_ops h m); try (destruct Hf; fail). destruct (f_in s m 0) as [[]|]; try (destruct Hf; fail);
      apply in_map_iff in Hf as (p & Hp & _); discriminate.
  Qed.

  Lemma run_good hist : interpret_wf ctx -> proto_wf -> run veq ctx h proto hist ->
    forall s rest, hist = s :: rest -> good s /\ forall old, In old hist -> wf_facts old /\ below old s.
  Proof.
    intros HI HP HR. induction HR as [|s hist old f fs new c HR IH Hold HD Hf Hadd]; intros s0 rest [= <- <-].
    - split; [constructor; [constructor; discriminate|discriminate]|]. intros old [<-|[]]. split; [constructor; discriminate|apply below_refl].
    - destruct (IH s hist eq_refl) as [[Gw Gc] Hall]. destruct (Hall old Hold) as [Wo Bo].
      assert (Wf : wf_fact f) by (eapply derive_wf; eassumption).
      destruct (add_fact_ok s f new c Gw Wf Hadd) as [Wn Bn].
      split.
      + constructor; [exact Wn|]. intros n t Ht.
        assert (Hs : f_callee new n = f_callee s n \/ exists t', f = FCallee n t' /\ f_callee new n = Some (match f_callee s n with None => t' | Some x => fst (target_join t' x) end)).
        { destruct f as [m p v|m p v|m vs|a b|a b|m t']; cbn in Hadd.
          - destruct (match f_out s m p with None => _ | Some x => _ end). injection Hadd as <- _. left. reflexivity.
          - destruct (match f_in s m p with None => _ | Some x => _ end). injection Hadd as <- _. left. reflexivity.
          - destruct (match f_row s m with None => _ | Some x => _ end) as [[? ?]|]; [|discriminate]. injection Hadd as <- _. left. reflexivity.
          - destruct (existsb _ _); injection Hadd as <- _; left; reflexivity.
          - destruct (existsb _ _); injection Hadd as <- _; left; reflexivity.
          - destruct (N.eqb_spec n m) as [->|Hne].
            + right. exists t'. split; [reflexivity|]. destruct (f_callee s m) as [x|].
              * destruct (target_join t' x) as [y c0]. injection Hadd as <- _. cbn. unfold upd. rewrite N.eqb_refl. reflexivity.
              * injection Hadd as <- _. cbn. unfold upd. rewrite N.eqb_refl. reflexivity.
            + left. destruct (match f_callee s m with None => _ | Some x => _ end). injection Hadd as <- _. cbn. unfold upd. rewrite (proj2 (N.eqb_neq n m) Hne). reflexivity. }
        destruct Hs as [Hs|(t' & -> & Hs)].
        * rewrite Hs in Ht. destruct (Gc n t Ht) as (v & Hv & Lv). destruct (b_in _ _ Bn n 0 v Hv) as (w & Hw & Lw).
          exists w. split; [exact Hw|]. pose proof (load_mono _ _ Lw) as Lm. unfold target_le in *.
          destruct Lv as [->|[->|Lv]]; [auto|assumption|]. rewrite Lv in Lm. destruct Lm as [Lm|[Lm|Lm]]; [discriminate|auto|auto].
        * rewrite Hs in Ht. injection Ht as <-. destruct (derive_callee _ _ _ _ HD Hf) as (v & Hv & ->).
          destruct (b_in _ _ Bo n 0 v Hv) as (w & Hw & Lw). destruct (b_in _ _ Bn n 0 w Hw) as (w' & Hw' & Lw').
          exists w'. split; [exact Hw'|].
          assert (L1 : target_le (load_func v) (load_func w')) by (apply load_mono; eapply le_trans; eassumption).
          destruct (f_callee s n) as [x|] eqn:Ex; [|exact L1]. apply target_join_le; [exact L1|].
          destruct (Gc n x Ex) as (w2 & Hw2 & L2). rewrite Hw in Hw2. injection Hw2 as <-.
          pose proof (load_mono _ _ Lw') as Lm. unfold target_le in *.
          destruct L2 as [->|[->|L2]]; [auto|assumption|]. rewrite L2 in Lm. destruct Lm as [Lm|[Lm|Lm]]; [discriminate|auto|auto].
      + intros old' [<-|Hold']; [split; [exact Wn|apply below_refl]|]. destruct (Hall old' Hold') as [Wo' Bo']. split; [exact Wo'|].
        eapply below_trans; eassumption.
  Qed.
End Proofs.
