(** Proofs about the analysis of control-flow graphs. *)
From Coq Require Import List Bool Arith NArith Lia Relations.
From Verif Require Import NestModel NestSpec.
Import ListNotations.
Open Scope N_scope.

Lemma mem_In n l : mem n l = true <-> In n l.
Proof.
  unfold mem. rewrite existsb_exists. split.
  - intros (x & I & E). apply N.eqb_eq in E. now subst.
  - intros I. exists n. split; [easy|]. apply N.eqb_refl.
Qed.
Lemma mem_out n l : mem n l = false <-> ~ In n l.
Proof. rewrite <- mem_In. destruct (mem n l); split; congruence. Qed.

(** * Worklists *)
Section Worklist.
  Variable next : N -> list N.
  Definition step a b := In b (next a).

  Fixpoint wl (fuel : nat) (q found : list N) : option (list N) :=
    match fuel with
    | O => None
    | S fuel =>
      match q with
      | [] => Some found
      | n :: q => if mem n found then wl fuel q found else wl fuel (q ++ next n) (n :: found)
      end
    end.

  Variable univ : list N.
  Hypothesis CL : forall a b, In b (next a) -> In b univ.

  Definition rest (found : list N) : nat :=
    total next (filter (fun n => negb (mem n found)) univ).

  Lemma total_app f a b : total f (a ++ b) = (total f a + total f b)%nat.
  Proof. induction a as [|x a IH]; cbn; [easy|]. fold (total f (a ++ b)) (total f a). rewrite IH. lia. Qed.

  Lemma rest_drop n found : In n univ -> mem n found = false ->
    (rest (n :: found) + length (next n) <= rest found)%nat.
  Proof.
    intros I F. unfold rest.
    assert (G : forall l, (total next (filter (fun m => negb (mem m (n :: found))) l)
                           <= total next (filter (fun m => negb (mem m found)) l))%nat).
    { induction l as [|x l IH]; [cbn; lia|]. cbn [filter]. unfold mem at 1. cbn [existsb].
      fold (mem x found). destruct (x =? n), (mem x found); cbn [orb negb total fold_right]; unfold total in *; lia. }
    apply in_split in I as (l1 & l2 & ->). rewrite !filter_app, !total_app.
    pose proof (G l1). pose proof (G l2). cbn [filter].
    assert (E1 : mem n (n :: found) = true) by (cbn; now rewrite N.eqb_refl).
    rewrite E1, F. cbn [negb]. cbn [total fold_right]. unfold total in *. lia.
  Qed.

  Lemma rest_nil found : (rest found <= total next univ)%nat.
  Proof.
    unfold rest. induction univ as [|x l IH]; cbn; [lia|].
    assert (IH' : (total next (filter (fun n => negb (mem n found)) l) <= total next l)%nat).
    { clear. induction l as [|x l IH]; cbn; [lia|]. destruct (mem x found); cbn; unfold total in *; lia. }
    destruct (mem x found); cbn; unfold total in *; lia.
  Qed.

  Lemma wl_total fuel : forall q found, incl q univ ->
    (length q + rest found < fuel)%nat -> exists l, wl fuel q found = Some l.
  Proof.
    induction fuel as [|fuel IH]; intros q found Q L; [lia|]. destruct q as [|n q]; [cbn; eauto|].
    cbn [wl]. destruct (mem n found) eqn:M.
    - apply IH; [intros x I; apply Q; now right|]. cbn [length] in L. lia.
    - apply IH.
      + intros x I. apply in_app_iff in I as [I|I]; [apply Q; now right|]. eapply CL; eassumption.
      + pose proof (rest_drop n found (Q n (or_introl eq_refl)) M). rewrite app_length. cbn [length] in L. lia.
  Qed.

  Lemma wl_spec fuel : forall q found l, wl fuel q found = Some l ->
    NoDup found -> (forall a b, In a found -> step a b -> In b found \/ In b q) ->
    NoDup l /\ incl found l /\ incl q l /\ (forall a b, In a l -> step a b -> In b l)
    /\ (forall b, In b l -> In b found \/ exists a, In a q /\ clos_refl_trans N step a b).
  Proof.
    induction fuel as [|fuel IH]; intros q found l E ND C; [easy|]. destruct q as [|n q].
    - cbn in E. injection E as <-. split; [easy|]. split; [intros x; auto|]. split; [easy|]. split.
      + intros a b I S. destruct (C a b I S) as [?|[]]. easy.
      + auto.
    - cbn [wl] in E. destruct (mem n found) eqn:M.
      + apply mem_In in M. destruct (IH _ _ _ E ND) as (A & B & D & F & G).
        { intros a b I S. destruct (C a b I S) as [?|[<-|?]]; auto. }
        split; [easy|]. split; [easy|]. split; [intros x [<-|I]; auto|]. split; [easy|].
        intros b I. destruct (G b I) as [?|(a & IA & P)]; [auto|]. right. exists a. split; [now right|easy].
      + apply mem_out in M. destruct (IH _ _ _ E) as (A & B & D & F & G).
        { now constructor. }
        { intros a b [<-|I] S.
          - right. apply in_app_iff. now right.
          - destruct (C a b I S) as [?|[<-|?]]; [left; now right|left; now left|].
            right. apply in_app_iff. now left. }
        split; [easy|]. split; [intros x I; apply B; now right|].
        split. { intros x [<-|I]; [apply B; now left|]. apply D, in_app_iff. now left. }
        split; [easy|]. intros b I. destruct (G b I) as [[<-|?]|(a & IA & P)]; [| auto |].
        * right. exists n. split; [now left|apply rt_refl].
        * right. apply in_app_iff in IA as [IA|IA].
          -- exists a. split; [now right|easy].
          -- exists n. split; [now left|]. eapply rt_trans; [apply rt_step; exact IA|easy].
  Qed.

  (** A worklist search from [a] finds exactly the nodes that can be reached. *)
  Lemma wl_reach fuel a : In a univ -> (S (total next univ) < fuel)%nat ->
    exists l, wl fuel [a] [] = Some l /\ NoDup l /\ forall b, In b l <-> clos_refl_trans N step a b.
  Proof.
    intros I L. destruct (wl_total fuel [a] []) as (l & E).
    - now intros x [<-|[]].
    - pose proof (rest_nil []). cbn [length]. lia.
    - exists l. split; [easy|]. destruct (wl_spec _ _ _ _ E) as (A & _ & D & F & G); [constructor|easy|].
      split; [easy|]. intros b. split.
      + intros IB. destruct (G b IB) as [[]|(x & [<-|[]] & P)]. easy.
      + intros P. apply clos_rt_rtn1 in P. induction P as [|b c S _ IH]; [apply D; now left|eauto].
  Qed.
End Worklist.

(** * The blocks of a region *)
Definition inner (g : cfg) (ex : N * N) (n : N) : list N :=
  if n =? fst ex then filter (fun s => negb (s =? snd ex)) (succ g n) else succ g n.

Lemma inner_iff g ex a b : In b (inner g ex a) <-> In b (succ g a) /\ (a, b) <> ex.
Proof.
  destruct ex as [x y]. unfold inner. cbn [fst snd]. destruct (N.eqb_spec a x) as [->|NE].
  - rewrite filter_In. destruct (N.eqb_spec b y) as [->|NY]; cbn.
    + split; intros [? ?]; congruence.
    + split; intros [? ?]; (split; [easy|]); congruence.
  - split; [|tauto]. intros I. split; [easy|]. congruence.
Qed.

Lemma filter_len {A} (p : A -> bool) l : length (filter p l) = length l <-> forall x, In x l -> p x = true.
Proof.
  induction l as [|x l IH]; cbn; [easy|].
  assert (LE : (length (filter p l) <= length l)%nat).
  { clear. induction l as [|x l IH]; cbn; [lia|]. destruct (p x); cbn; lia. }
  destruct (p x) eqn:E; cbn.
  - split.
    + intros L y [<-|I]; [easy|]. apply IH; [lia|easy].
    + intros H. f_equal. apply IH. auto.
  - split; [lia|]. intros H. specialize (H x (or_introl eq_refl)). congruence.
Qed.

Lemma region_loop_wl g ex fuel : forall q found,
  (region_loop g ex fuel q found = Some (Err (ExitEdgeNotPresent (fst ex) (snd ex)))
   /\ ~ In (snd ex) (succ g (fst ex))
   /\ exists a, In a q /\ clos_refl_trans N (step (inner g ex)) a (fst ex))
  \/ (region_loop g ex fuel q found = option_map Ok (wl (inner g ex) fuel q found)
      /\ forall l, wl (inner g ex) fuel q found = Some l -> In (fst ex) l -> ~ In (fst ex) found ->
         In (snd ex) (succ g (fst ex))).
Proof.
  induction fuel as [|fuel IH]; intros q found; [right; now split|].
  destruct q as [|n q].
  { right. split; [easy|]. cbn. intros l E. injection E as <-. easy. }
  cbn [region_loop wl]. destruct (mem n found) eqn:M.
  { destruct (IH q found) as [(A & B & (a & IA & P))|(A & B)]; [left|right; now split].
    split; [easy|]. split; [easy|]. exists a. split; [now right|easy]. }
  apply mem_out in M. destruct (N.eqb_spec n (fst ex)) as [->|NE].
  - destruct (Nat.eqb_spec (length (filter (fun s => negb (s =? snd ex)) (succ g (fst ex)))) (length (succ g (fst ex)))) as [L|L].
    + left. split; [easy|]. split.
      * intros I. apply filter_len with (x := snd ex) in L; [|easy]. now rewrite N.eqb_refl in L.
      * exists (fst ex). split; [now left|apply rt_refl].
    + assert (PR : In (snd ex) (succ g (fst ex))).
      { destruct (in_dec N.eq_dec (snd ex) (succ g (fst ex))) as [|NI]; [easy|]. exfalso. apply L, filter_len.
        intros x I. destruct (N.eqb_spec x (snd ex)) as [->|]; easy. }
      destruct (IH (q ++ filter (fun s => negb (s =? snd ex)) (succ g (fst ex))) (fst ex :: found)) as [(_ & B & _)|(A & B)]; [easy|].
      right. assert (EI : inner g ex (fst ex) = filter (fun s => negb (s =? snd ex)) (succ g (fst ex))).
      { unfold inner. now rewrite N.eqb_refl. }
      rewrite EI. split; [easy|]. auto.
  - assert (EI : inner g ex n = succ g n).
    { unfold inner. now apply N.eqb_neq in NE as ->. }
    rewrite EI. destruct (IH (q ++ succ g n) (n :: found)) as [(A & B & (a & IA & P))|(A & B)].
    + left. split; [easy|]. split; [easy|]. apply in_app_iff in IA as [IA|IA].
      * exists a. split; [now right|easy].
      * exists n. split; [now left|]. eapply rt_trans; [|exact P]. apply rt_step. unfold step. now rewrite EI.
    + right. split; [easy|]. intros l E I NF. apply (B l E I). intros [->|F]; easy.
Qed.

Lemma uniq_from_In {A} (eqb : A -> A -> bool) (EQ : forall x y, eqb x y = true <-> x = y) l : forall seen x,
  In x (uniq_from eqb seen l) <-> In x l /\ ~ In x seen.
Proof.
  induction l as [|y l IH]; intros seen x; cbn [uniq_from]; [cbn; tauto|].
  destruct (existsb (eqb y) seen) eqn:X.
  - apply existsb_exists in X as (z & Z & E). apply EQ in E. subst z. rewrite IH. cbn. split; [tauto|].
    intros [[->|?] ?]; tauto.
  - assert (Y : ~ In y seen).
    { intros I. assert (T : existsb (eqb y) seen = true); [|congruence]. apply existsb_exists. exists y. split; [easy|]. now apply EQ. }
    cbn [In]. rewrite IH. cbn [In]. split.
    + intros [->|[? ?]]; [tauto|]. split; [tauto|]. intros ?. tauto.
    + intros [[->|?] ?]; [tauto|]. destruct (eqb x y) eqn:E.
      * apply EQ in E. subst. tauto.
      * right. split; [easy|]. intros [->|?]; [|easy]. assert (eqb x x = true) by now apply EQ. congruence.
Qed.
Lemma uniq_In {A} (eqb : A -> A -> bool) (EQ : forall x y, eqb x y = true <-> x = y) l x :
  In x (uniq eqb l) <-> In x l.
Proof. unfold uniq. rewrite uniq_from_In by easy. cbn. tauto. Qed.
Lemma uniq_from_NoDup {A} (eqb : A -> A -> bool) (EQ : forall x y, eqb x y = true <-> x = y) l : forall seen,
  NoDup (uniq_from eqb seen l).
Proof.
  induction l as [|y l IH]; intros seen; cbn [uniq_from]; [constructor|].
  destruct (existsb (eqb y) seen) eqn:X; [apply IH|]. constructor; [|apply IH].
  rewrite (uniq_from_In eqb EQ). cbn. tauto.
Qed.

Lemma partition_filter {A} (p : A -> bool) l : partition p l = (filter p l, filter (fun x => negb (p x)) l).
Proof. induction l as [|x l IH]; cbn; [easy|]. rewrite IH. now destruct (p x). Qed.

Lemma single_filter (l : list N) a : NoDup l -> filter (fun i => i =? a) l = if mem a l then [a] else [].
Proof.
  induction l as [|x l IH]; intros ND; [easy|]. apply NoDup_cons_iff in ND as [NI ND]. cbn [filter].
  unfold mem. cbn [existsb]. rewrite (N.eqb_sym a x). destruct (N.eqb_spec x a) as [->|NE]; cbn [orb].
  - rewrite IH by easy. apply mem_out in NI. now rewrite NI.
  - now apply IH.
Qed.

(** What [region_blocks] returns, in terms of the graph. *)
Definition region_post (g : cfg) (en ex : N * N) (r : result region_error (list N)) : Prop :=
  match r with
  | Err (ExitEdgeNotPresent s t) =>
      (s, t) = ex /\ within g ex (snd en) (fst ex) /\ ~ edge g ex
  | Err e =>
      (within g ex (snd en) (fst ex) -> edge g ex)
      /\ match e with
         | EntryEdgeSourceInRegion s => s = fst en /\ within g ex (snd en) (fst en)
         | EntryEdgeNotPresent s t => (s, t) = en /\ ~ within g ex (snd en) (fst en) /\ ~ edge g en
         | UnexpectedEntryEdges l =>
             edge g en /\ ~ within g ex (snd en) (fst en) /\ l <> []
             /\ forall p, In p l <-> edge g (p, snd en) /\ p <> fst en /\ ~ within g ex (snd en) p
         | ExitEdgeNotPresent _ _ => True
         end
  | Ok l =>
      (within g ex (snd en) (fst ex) -> edge g ex)
      /\ edge g en /\ ~ within g ex (snd en) (fst en)
      /\ (forall p, edge g (p, snd en) -> p = fst en \/ within g ex (snd en) p)
      /\ NoDup l /\ forall b, In b l <-> within g ex (snd en) b
  end.

Lemma within_step g ex a b : within g ex a b <-> clos_refl_trans N (step (inner g ex)) a b.
Proof.
  unfold within. split; intros P; (induction P as [x y S|x|x y z _ A _ B]; [|apply rt_refl|eapply rt_trans; eassumption]);
    apply rt_step; unfold step in *; now apply inner_iff.
Qed.

Lemma region_blocks_post g en ex : cfg_wf g -> In (snd en) (blocks g) ->
  exists r, region_blocks g en ex = Some r /\ region_post g en ex r.
Proof.
  intros W IN. unfold region_blocks.
  assert (CL : forall a b, In b (inner g ex a) -> In b (blocks g)).
  { intros a b I. apply inner_iff in I as [I _]. now apply (wf_closed g W) in I. }
  assert (LE : (total (inner g ex) (blocks g) <= total (succ g) (blocks g))%nat).
  { unfold total. clear W IN CL. generalize (blocks g) as bl. induction bl as [|x l IH]; [cbn; lia|]. cbn [fold_right].
    assert (length (inner g ex x) <= length (succ g x))%nat; [|lia].
    unfold inner. destruct (x =? fst ex); [|lia].
    clear. induction (succ g x) as [|y l IH]; cbn; [lia|]. destruct (negb _); cbn; lia. }
  destruct (region_loop_wl g ex (region_fuel g) [snd en] []) as [(A & B & (a & [<-|[]] & P))|(A & B)].
  - rewrite A. eexists. split; [reflexivity|]. cbn. split; [now destruct ex|]. split; [now apply within_step|easy].
  - destruct (wl_reach (inner g ex) (blocks g) CL (region_fuel g) (snd en) IN) as (l & E & ND & R).
    { unfold region_fuel. lia. }
    rewrite A, E. cbn [option_map].
    assert (R' : forall b, In b l <-> within g ex (snd en) b).
    { intros b. rewrite within_step. apply R. }
    assert (X : within g ex (snd en) (fst ex) -> edge g ex).
    { intros H. apply R' in H. apply (B l E H). now intros []. }
    eexists. split; [reflexivity|]. destruct (mem (fst en) l) eqn:M.
    { apply mem_In in M. cbn. split; [easy|]. split; [easy|]. now apply R'. }
    apply mem_out in M. rewrite partition_filter.
    assert (NW : ~ within g ex (snd en) (fst en)) by (intros H; apply M; now apply R').
    assert (NDU : NoDup (filter (fun p => negb (mem p l)) (uniq N.eqb (pred g (snd en))))).
    { apply NoDup_filter. apply uniq_from_NoDup. apply N.eqb_eq. }
    assert (IU : forall p, In p (filter (fun p => negb (mem p l)) (uniq N.eqb (pred g (snd en))))
                      <-> edge g (p, snd en) /\ ~ within g ex (snd en) p).
    { intros p. rewrite filter_In, (uniq_In N.eqb N.eqb_eq). unfold edge. cbn [fst snd].
      rewrite (wf_converse g W). rewrite <- R'. rewrite <- mem_out. destruct (mem p l); cbn; intuition congruence. }
    set (u := filter _ (uniq _ _)) in *.
    rewrite (single_filter u (fst en) NDU). destruct (mem (fst en) u) eqn:MU.
    + apply mem_In in MU. apply IU in MU as [EE _]. rewrite <- surjective_pairing in EE.
      destruct (filter (fun x => negb (x =? fst en)) u) as [|p ps] eqn:F.
      * cbn. split; [easy|]. split; [easy|]. split; [easy|]. split; [|now split].
        intros p PE. destruct (N.eq_dec p (fst en)) as [|NE]; [now left|]. right.
        destruct (in_dec N.eq_dec p l) as [I|NI]; [now apply R'|]. exfalso.
        assert (I : In p []); [|easy]. rewrite <- F. apply filter_In. split.
        -- apply IU. split; [easy|]. rewrite <- R'. easy.
        -- now apply N.eqb_neq in NE as ->.
      * cbn [region_post]. split; [easy|]. split; [easy|]. split; [easy|]. split; [easy|]. rewrite <- F.
        intros q. rewrite filter_In, IU. destruct (N.eqb_spec q (fst en)); cbn; intuition congruence.
    + apply mem_out in MU. cbn. split; [easy|]. split; [now destruct en|]. split; [easy|].
      intros EE. apply MU, IU. now rewrite <- surjective_pairing.
Qed.
