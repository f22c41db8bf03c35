(** Two HUGRs that agree on a set of nodes take the same steps there. *)
From Coq Require Import List Bool NArith Arith Lia.
From Verif Require Import PValModel TypesModel GraphModel GraphSpec PValSpec GraphProofs OpModel DeadModel InlineModel ReplaceModel FlowModel FlowSpec.
Import ListNotations.
Local Notation wf := GraphSpec.wf.

Section Mirror.
  Context {W V E F M : Type}.
  Notation conc := (conc W N unit).
  Notation hugr := (hugr op M).
  Notation frame := (@frame W).
  Variable sem : @semantics W E F.
  Variable ctx : @context V E F.

  (** What a step does to a frame. *)
  Inductive action :=
  | Put (n : N) (cs : list conc)
  | Enter (p i : N) (cs : list conc)
  | Jump (c p i : N) (cs : list conc)
  | Finish (n : N) (cs : list conc).
  Definition apply (h : hugr) (a : action) (fr : frame) : frame :=
    match a with
    | Put n cs => put fr n cs
    | Enter p i cs => enter h fr p i cs
    | Jump c p i cs => move (enter h fr p i cs) c (Some p)
    | Finish n cs => move (put fr n cs) n None
    end.
  Definition not_input (o : op) : Prop := match o with OInput _ => False | _ => True end.
  Definition acts (o : op) : Prop := match o with OInput _ | OFuncDefn _ _ _ => False | _ => True end.
  (** What the step of node [n] may do. *)
  Definition shape (h : hugr) (n : N) (a : action) : Prop :=
    match a with
    | Put m cs | Finish m cs => m = n /\ acts (h_ops h n) /\ fits h n cs
    | Enter p i cs => (exists o, get_io h p = Some (i, o)) /\ fits h i cs /\ (p = n \/ h_parent h p = Some n) /\ acts (h_ops h n)
    | Jump c p i cs => c = n /\ (exists o, get_io h p = Some (i, o)) /\ fits h i cs /\ h_parent h p = Some n /\ acts (h_ops h n)
    end.

  Variable A B : hugr.
  Variable K : N -> Prop.

  Record mirror : Prop := {
    m_node : forall n, K n -> In n (h_nodes A) -> In n (h_nodes B);
    m_ops : forall n, K n -> h_ops B n = h_ops A n;
    m_parent : forall n p, K n -> get_parent A n = Some p -> get_parent B n = Some p /\ K p;
    m_io : forall n i o, K n -> get_io A n = Some (i, o) -> get_io B n = Some (i, o) /\ K i /\ K o;
    m_desc : forall n p, K n -> K p -> In p (h_nodes A) -> memN n (descendants B p) = memN n (descendants A p);
    m_static : forall n c f g i, K n -> h_ops A n = OCall f g i -> DeadModel.static_source A n = Some c -> DeadModel.static_source B n = Some c /\ K c;
    m_load : forall n e, K n -> (exists t, h_ops A n = OLoadConstant t) \/ (exists f a i, h_ops A n = OLoadFunction f a i) ->
      single_linked_output A n 0 = Some e -> single_linked_output B n 0 = Some e /\ K (fst e);
    m_case : forall n rows oi ou k c, K n -> h_ops A n = OConditional rows oi ou -> nth_error (h_kids A n) k = Some c -> is_case (h_ops A c) = true ->
      nth_error (h_kids B n) k = Some c /\ K c;
    m_first : forall n g e, K n -> h_ops A n = OCfg g -> hd_error (h_kids A n) = Some e -> hd_error (h_kids B n) = Some e /\ K e;
    m_exit : forall n g e, K n -> h_ops A n = OCfg g -> nth_error (h_kids A n) 1 = Some e -> nth_error (h_kids B n) 1 = Some e /\ K e;
    m_block : forall n g t, K n -> h_ops A n = OCfg g -> In t (h_kids A n) -> is_block (h_ops A t) = true -> In t (h_kids B n) /\ K t;
    m_next : forall b k t j, K b -> K t -> is_block (h_ops A b) = true -> In (t, j) (linked_inputs A b k) -> In (t, j) (linked_inputs B b k);
    m_fun : forall f nm g pub, In f (h_nodes A) -> h_ops A f = OFuncDefn nm g pub -> K f }.

  Record agree (fr fr' : frame) : Prop := {
    ag_start : start fr' = start fr;
    ag_args : args fr' = args fr;
    ag_env : forall n, K n -> env fr' n = env fr n;
    ag_pc : forall n, K n -> pc fr' n = pc fr n }.

  Hypothesis WA : wf A.
  Hypothesis R : mirror.

  Lemma fits_mirror n (cs : list conc) : K n -> fits A n cs -> fits B n cs.
  Proof. unfold fits, out_count. intros H. rewrite (m_ops R n H). auto. Qed.
  Lemma active_mirror fr fr' n : agree fr fr' -> K n -> active A fr n -> active B fr' n.
  Proof.
    intros G Kn (p & i & o & row & Hp & Hio & He). destruct (m_parent R n p Kn Hp) as [Hp' Kp]. destruct (m_io R p i o Kp Hio) as (Hio' & Ki & _).
    exists p, i, o, row. rewrite (ag_env _ _ G i Ki). auto.
  Qed.
  Lemma waiting_mirror fr fr' n : agree fr fr' -> K n -> waiting A fr n -> waiting B fr' n.
  Proof.
    intros G Kn (H1 & H2 & H3). split; [apply (m_node R); assumption|]. rewrite (ag_start _ _ G), (ag_env _ _ G n Kn). split; [|exact H3].
    destruct H2 as [H2|H2]; [left; eapply active_mirror; eassumption|right; exact H2].
  Qed.
  Lemma leaf_mirror n ins outs : K n -> leaf_step sem ctx A n ins outs -> leaf_step sem ctx B n ins outs.
  Proof.
    intros Kn H. pose proof (m_ops R n Kn) as O. destruct H.
    - eapply l_make; [rewrite O|]; eassumption.
    - eapply l_unpack; [rewrite O| |]; eassumption.
    - eapply l_ext; [rewrite O| |]; eassumption.
    - eapply l_tag. rewrite O. eassumption.
    - destruct (m_load R n e Kn) as [H' Ke]; [left; eauto|assumption|]. eapply l_const; [rewrite O; eassumption|exact H'|]. rewrite (m_ops R _ Ke). eassumption.
    - destruct (m_load R n e Kn) as [H' Ke]; [right; eauto|assumption|]. eapply l_func; [rewrite O; eassumption|exact H'].
  Qed.

  (** The ports at which a step of [n] may look: its own, and the outputs of an active region. *)
  Definition looks (fr : frame) (n m : N) : Prop :=
    m = n \/ (exists p i, get_io A p = Some (i, m) /\ env fr i <> None /\ (p = n \/ h_parent A p = Some n)) \/
    (exists b i, get_io A b = Some (i, m) /\ pc fr n = Some b).

  Lemma kid_parent n c : In c (h_kids A n) -> h_parent A c = Some n.
  Proof. apply (wf_kids _ WA). Qed.
  Lemma hd_in {X} (l : list X) x : hd_error l = Some x -> In x l.
  Proof. destruct l; [discriminate|]. intros [= ->]. left. reflexivity. Qed.

  Lemma leaf_acts n ins outs : leaf_step sem ctx A n ins outs -> acts (h_ops A n).
  Proof. intros H. destruct H; match goal with X : h_ops A n = _ |- _ => rewrite X end; exact Logic.I. Qed.
  Definition touched (a : action) : N := match a with Put n _ | Finish n _ => n | Enter p _ _ => p | Jump _ p _ _ => p end.
  Ltac go1 := first [assumption | reflexivity | eapply leaf_acts; eassumption | match goal with X : h_ops A ?n = _ |- acts (h_ops A ?n) => rewrite X; exact Logic.I end |
    match goal with |- exists _, _ => eexists; eassumption end | left; reflexivity | right; apply kid_parent; eapply nth_error_In; eassumption |
    apply kid_parent, hd_in; assumption | apply kid_parent; assumption].
  Ltac go := split; [assumption|split; [cbn [shape]; repeat match goal with |- _ /\ _ => split end; go1|split; [reflexivity|split; [
    intros Kn; cbn [touched]; first [exact Kn | eapply (m_case R); eassumption | eapply (m_first R); eassumption | eapply (m_block R); eassumption]|]]]].

  Lemma local_mirror fr fr2 : local_step sem ctx A fr fr2 ->
    exists n a, waiting A fr n /\ shape A n a /\ fr2 = apply A a fr /\ (K n -> K (touched a)) /\
      forall fr', agree fr fr' -> K n -> (forall b, pc fr n = Some b -> K b) ->
        (forall m cs, K m -> looks fr n m -> inputs A fr m cs -> inputs B fr' m cs) -> local_step sem ctx B fr' (apply B a fr').
  Proof.
    intros H. destruct H.
    - exists n, (Put n outs). go.
      intros fr' G Kn Kb Hin. eapply s_leaf; [eapply waiting_mirror; eassumption|apply Hin; [exact Kn|left; reflexivity|eassumption]|apply leaf_mirror; assumption|apply fits_mirror; assumption].
    - exists n, (Enter n i ins). go.
      intros fr' G Kn Kb Hin. destruct (m_io R n i o Kn H1) as (Hio & Ki & Ko).
      eapply s_dfg_in with (n := n); [eapply waiting_mirror; eassumption|rewrite (m_ops R n Kn); eassumption|exact Hio|rewrite (ag_env _ _ G i Ki); exact H2|apply Hin; [exact Kn|left; reflexivity|eassumption]|apply fits_mirror; assumption].
    - exists n, (Put n outs). go.
      intros fr' G Kn Kb Hin. destruct (m_io R n i o Kn H1) as (Hio & Ki & Ko).
      eapply s_dfg_out with (n := n); [eapply waiting_mirror; eassumption|rewrite (m_ops R n Kn); eassumption|exact Hio|rewrite (ag_env _ _ G i Ki); exact H2| |apply fits_mirror; assumption].
      apply Hin; [exact Ko| |assumption]. right. left. exists n, i. auto.
    - exists n, (Enter n i ins). go.
      intros fr' G Kn Kb Hin. destruct (m_io R n i o Kn H1) as (Hio & Ki & Ko).
      eapply s_loop_in with (n := n); [eapply waiting_mirror; eassumption|rewrite (m_ops R n Kn); eassumption|exact Hio|rewrite (ag_env _ _ G i Ki); exact H2|apply Hin; [exact Kn|left; reflexivity|eassumption]|apply fits_mirror; assumption].
    - exists n, (Enter n i (cs ++ rest)). go.
      intros fr' G Kn Kb Hin. destruct (m_io R n i o Kn H1) as (Hio & Ki & Ko).
      eapply s_loop_again with (n := n); [eapply waiting_mirror; eassumption|rewrite (m_ops R n Kn); eassumption|exact Hio|rewrite (ag_env _ _ G i Ki); exact H2| |eassumption|apply fits_mirror; assumption].
      apply Hin; [exact Ko| |assumption]. right. left. exists n, i. auto.
    - exists n, (Put n (cs ++ rest)). go.
      intros fr' G Kn Kb Hin. destruct (m_io R n i o Kn H1) as (Hio & Ki & Ko).
      eapply s_loop_out with (n := n); [eapply waiting_mirror; eassumption|rewrite (m_ops R n Kn); eassumption|exact Hio|rewrite (ag_env _ _ G i Ki); exact H2| |eassumption|apply fits_mirror; assumption].
      apply Hin; [exact Ko| |assumption]. right. left. exists n, i. auto.
    - exists n, (Enter case i (cs ++ rest)). go.
      intros fr' G Kn Kb Hin. destruct (m_case R n _ _ _ k case Kn H0 H2 H3) as [Hk Kc]. destruct (m_io R case i o Kc H4) as (Hio & Ki & Ko).
      eapply s_cond_in with (n := n); [eapply waiting_mirror; eassumption|rewrite (m_ops R n Kn); eassumption|apply Hin; [exact Kn|left; reflexivity|eassumption]|exact Hk|rewrite (m_ops R case Kc); assumption|exact Hio|
        rewrite (ag_env _ _ G i Ki); assumption|eassumption|assumption|apply fits_mirror; assumption].
    - exists n, (Put n outs). go.
      intros fr' G Kn Kb Hin. destruct (m_case R n _ _ _ k case Kn H0 H2 H3) as [Hk Kc]. destruct (m_io R case i o Kc H4) as (Hio & Ki & Ko).
      eapply s_cond_out with (n := n); [eapply waiting_mirror; eassumption|rewrite (m_ops R n Kn); eassumption|apply Hin; [exact Kn|left; reflexivity|eassumption]|exact Hk|rewrite (m_ops R case Kc); assumption|exact Hio|
        rewrite (ag_env _ _ G i Ki); assumption| |apply fits_mirror; assumption].
      apply Hin; [exact Ko| |assumption]. right. left. exists case, i. split; [exact H4|]. split; [assumption|]. right. apply kid_parent. eapply nth_error_In. eassumption.
    - exists n, (Jump n e i ins). go.
      intros fr' G Kn Kb Hin. destruct (m_first R n _ e Kn H0 H2) as [Hk Ke]. destruct (m_io R e i o Ke H3) as (Hio & Ki & Ko).
      cbn [apply]. eapply s_cfg_in with (n := n); [eapply waiting_mirror; eassumption|rewrite (m_ops R n Kn); eassumption|rewrite (ag_pc _ _ G n Kn); assumption|exact Hk|exact Hio|
        apply Hin; [exact Kn|left; reflexivity|eassumption]|apply fits_mirror; assumption].
    - exists n, (Jump n t i' (cs ++ rest)). go.
      intros fr' G Kn Kb Hin. pose proof (Kb b H1) as Kbb. destruct (m_io R b i o Kbb H3) as (Hio & Ki & Ko).
      destruct (m_block R n _ t Kn H0 H8 H9) as [Hk Kt]. destruct (m_io R t i' o' Kt H10) as (Hio' & Ki' & Ko').
      cbn [apply]. eapply s_branch with (n := n); [eapply waiting_mirror; eassumption|rewrite (m_ops R n Kn); eassumption|rewrite (ag_pc _ _ G n Kn); eassumption|rewrite (m_ops R b Kbb); eassumption|exact Hio| |eassumption|assumption|
        apply (m_next R); [exact Kbb|exact Kt|rewrite H2; reflexivity|eassumption]|exact Hk|rewrite (m_ops R t Kt); assumption|exact Hio'|apply fits_mirror; assumption].
      apply Hin; [exact Ko| |assumption]. right. right. exists b, i. auto.
    - exists n, (Finish n (cs ++ rest)). go.
      intros fr' G Kn Kb Hin. pose proof (Kb b H1) as Kbb. destruct (m_io R b i o Kbb H3) as (Hio & Ki & Ko). destruct (m_exit R n _ t Kn H0 H8) as [Hk Kt].
      cbn [apply]. eapply s_exit with (n := n); [eapply waiting_mirror; eassumption|rewrite (m_ops R n Kn); eassumption|rewrite (ag_pc _ _ G n Kn); eassumption|rewrite (m_ops R b Kbb); eassumption|exact Hio| |eassumption|assumption|
        apply (m_next R); [exact Kbb|exact Kt|rewrite H2; reflexivity|eassumption]|exact Hk|apply fits_mirror; assumption].
      apply Hin; [exact Ko| |assumption]. right. right. exists b, i. auto.
    - exists n, (Put n outs). go.
      intros fr' G Kn Kb Hin. eapply s_call_value with (n := n); [eapply waiting_mirror; eassumption|rewrite (m_ops R n Kn); eassumption|apply Hin; [exact Kn|left; reflexivity|eassumption]|eassumption|apply fits_mirror; assumption].
  Qed.

  Lemma calls_mirror (fr fr' : frame) n f ins : K n -> (forall cs, inputs A fr n cs -> inputs B fr' n cs) -> calls A fr n f ins -> calls B fr' n f ins.
  Proof.
    intros Kn Hin H. destruct H.
    - destruct (m_static R n callee _ _ _ Kn H H1) as [Hs _]. eapply c_direct; [rewrite (m_ops R n Kn); eassumption|apply Hin; assumption|exact Hs].
    - eapply c_indirect; [rewrite (m_ops R n Kn); eassumption|apply Hin; assumption].
  Qed.

  (** Applying the same action to both. *)
  Lemma agree_apply (fr fr' : frame) n a : In n (h_nodes A) -> agree fr fr' -> shape A n a -> K (touched a) -> agree (apply A a fr) (apply B a fr').
  Proof.
    intros Hn G Hs Ka. assert (Hl : In (touched a) (h_nodes A)).
    { destruct a; cbn in *; [destruct Hs as [-> _]; exact Hn| | |destruct Hs as [-> _]; exact Hn].
      - destruct Hs as (_ & _ & [->|H] & _); [exact Hn|]. apply (wf_parent_live A WA _ _ H).
      - destruct Hs as (_ & _ & _ & H & _). apply (wf_parent_live A WA _ _ H). }
    destruct a as [m cs|p i cs|c p i cs|m cs]; cbn in *; constructor; cbn; try apply G; intros x Kx.
    - unfold upd. rewrite (ag_env _ _ G x Kx). reflexivity.
    - rewrite (m_desc R x p Kx Ka Hl), (ag_env _ _ G x Kx). reflexivity.
    - rewrite (m_desc R x p Kx Ka Hl), (ag_pc _ _ G x Kx). reflexivity.
    - rewrite (m_desc R x p Kx Ka Hl), (ag_env _ _ G x Kx). reflexivity.
    - unfold upd. rewrite (m_desc R x p Kx Ka Hl), (ag_pc _ _ G x Kx). reflexivity.
    - unfold upd. rewrite (ag_env _ _ G x Kx). reflexivity.
    - unfold upd. rewrite (ag_pc _ _ G x Kx). reflexivity.
  Qed.
  (** An action outside is not noticed. *)
  Lemma agree_skip (fr fr' : frame) n a : agree fr fr' -> shape A n a -> ~ K n ->
    (forall p, (p = n \/ h_parent A p = Some n) -> forall x, K x -> memN x (descendants A p) = false) ->
    (forall p i o, (p = n \/ h_parent A p = Some n) -> get_io A p = Some (i, o) -> ~ K i) -> agree (apply A a fr) fr'.
  Proof.
    intros G Hs Hn Hd Hi. destruct a as [m cs|p i cs|c p i cs|m cs]; cbn in *; constructor; cbn; try apply G; intros x Kx.
    - destruct Hs as [-> _]. unfold upd. destruct (N.eqb_spec x n) as [->|]; [contradiction|apply (ag_env _ _ G x Kx)].
    - destruct Hs as ((o & Hio) & _ & Hp & _). rewrite (Hd p Hp x Kx). destruct (N.eqb_spec x i) as [->|]; [exfalso; eapply Hi; eassumption|apply (ag_env _ _ G x Kx)].
    - destruct Hs as ((o & Hio) & _ & Hp & _). rewrite (Hd p Hp x Kx). apply (ag_pc _ _ G x Kx).
    - destruct Hs as (-> & (o & Hio) & _ & Hp & _). rewrite (Hd p (or_intror Hp) x Kx). destruct (N.eqb_spec x i) as [->|]; [exfalso; eapply Hi; eauto|apply (ag_env _ _ G x Kx)].
    - destruct Hs as (-> & (o & Hio) & _ & Hp & _). unfold upd. rewrite (Hd p (or_intror Hp) x Kx). destruct (N.eqb_spec x n) as [->|]; [contradiction|apply (ag_pc _ _ G x Kx)].
    - destruct Hs as [-> _]. unfold upd. destruct (N.eqb_spec x n) as [->|]; [contradiction|apply (ag_env _ _ G x Kx)].
    - destruct Hs as [-> _]. unfold upd. destruct (N.eqb_spec x n) as [->|]; [contradiction|apply (ag_pc _ _ G x Kx)].
  Qed.
End Mirror.
