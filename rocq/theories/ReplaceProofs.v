(** Lemmas about the boundary of a replacement. *)
From Coq Require Import List Bool NArith Arith Lia Permutation.
From Verif Require Import TagModel TypesModel GraphModel GraphSpec GraphProofs GraphRemove InsertModel InsertSpec InsertProofs OpModel DeadModel DeadProofs
  InlineModel ReplaceModel ReplaceSpec.
Import ListNotations.

(** ** Lists *)
Lemma opt_flat_some : forall A B (f : A -> option (list B)) (g : A -> list B) l, (forall x, In x l -> f x = Some (g x)) -> opt_flat f l = Some (flat_map g l).
Proof.
  intros A B f g. unfold opt_flat. induction l as [|x l IH]; intros H; [reflexivity|]. cbn [map concat_some flat_map].
  rewrite (H x (or_introl eq_refl)), IH; [reflexivity|]. intros y I. apply H. now right.
Qed.

Lemma enumerate_iff : forall A (l : list A) p x, In (p, x) (enumerate l) <-> nth_error l p = Some x.
Proof. intros A l p x. unfold enumerate. rewrite in_enum, Nat.sub_0_r. split; [tauto|]. intros E. split; [lia|exact E]. Qed.

Lemma enumerate_snd : forall A (l : list A), map snd (enumerate l) = l.
Proof.
  intros A l. unfold enumerate. generalize 0. induction l as [|x l IH]; intros k; [reflexivity|]. cbn. f_equal. apply IH.
Qed.
Lemma enumerate_fst : forall A (l : list A), map fst (enumerate l) = seq 0 (length l).
Proof.
  intros A l. unfold enumerate. generalize 0. induction l as [|x l IH]; intros k; [reflexivity|]. cbn. f_equal. apply IH.
Qed.

Lemma flat_map_in_ext : forall A B (f g : A -> list B) l, (forall x, In x l -> f x = g x) -> flat_map f l = flat_map g l.
Proof.
  intros A B f g. induction l as [|x l IH]; intros H; [reflexivity|]. cbn [flat_map]. rewrite (H x (or_introl eq_refl)), IH; [reflexivity|].
  intros y I. apply H. now right.
Qed.

Lemma flat_map_map : forall A B C (f : B -> list C) (g : A -> B) l, flat_map f (map g l) = flat_map (fun x => f (g x)) l.
Proof. intros A B C f g. induction l as [|x l IH]; [reflexivity|]. cbn. now rewrite IH. Qed.

Lemma map_flat_map : forall A B C (f : B -> C) (g : A -> list B) l, map f (flat_map g l) = flat_map (fun x => map f (g x)) l.
Proof. intros A B C f g. induction l as [|x l IH]; [reflexivity|]. cbn. now rewrite map_app, IH. Qed.

Lemma filter_flat_map : forall A B (p : B -> bool) (g : A -> list B) l, filter p (flat_map g l) = flat_map (fun x => filter p (g x)) l.
Proof. intros A B p g. induction l as [|x l IH]; [reflexivity|]. cbn. now rewrite filter_app, IH. Qed.

Lemma flat_map_two : forall A B (f g : A -> list B) l, Permutation (flat_map f l ++ flat_map g l) (flat_map (fun x => f x ++ g x) l).
Proof.
  intros A B f g. induction l as [|x l IH]; [constructor|]. cbn [flat_map]. rewrite <- !app_assoc. apply Permutation_app_head.
  eapply Permutation_trans; [apply Permutation_app_swap_app|]. apply Permutation_app_head. exact IH.
Qed.

Definition mem_ep (e : endpoint) (l : list endpoint) : bool := existsb (ep_eqb e) l.
Lemma mem_ep_iff : forall e l, mem_ep e l = true <-> In e l.
Proof.
  intros e l. unfold mem_ep. rewrite existsb_exists. split; [intros (x & I & E); apply ep_eqb_iff in E; now subst|].
  intros I. exists e. split; [exact I|]. now apply ep_eqb_iff.
Qed.

(** Links grouped by one of their ends. *)
Lemma group_perm : forall (key : link -> endpoint) ls keys, NoDup keys ->
  Permutation (flat_map (fun e => filter (fun l => ep_eqb (key l) e) ls) keys) (filter (fun l => mem_ep (key l) keys) ls).
Proof.
  intros key ls. induction keys as [|e keys IH]; intros D.
  - cbn. replace (filter (fun _ => false) ls) with (@nil link); [constructor|]. symmetry. induction ls as [|l ls IH]; [reflexivity|exact IH].
  - inversion D as [|? ? Ne D']; subst. cbn [flat_map]. eapply Permutation_trans; [apply Permutation_app_head, IH, D'|].
    eapply Permutation_trans; [apply Permutation_sym, filter_or|].
    + intros l _ E. apply ep_eqb_iff in E. apply not_true_is_false. rewrite mem_ep_iff. now subst.
    + apply Permutation_refl. 
Qed.

Lemma filter_split : forall A (p q : A -> bool) l, Permutation (filter p l) (filter (fun x => p x && q x) l ++ filter (fun x => p x && negb (q x)) l).
Proof.
  intros A p q l. induction l as [|x l IH]; [constructor|]. cbn [filter]. destruct (p x); [|exact IH]. cbn [andb]. destruct (q x); cbn [negb app].
  - now constructor.
  - eapply Permutation_trans; [constructor; exact IH|]. apply Permutation_middle.
Qed.

Lemma filter_none : forall A (f : A -> bool) l, (forall x, In x l -> f x = false) -> filter f l = [].
Proof.
  intros A f. induction l as [|x l IH]; intros H; [reflexivity|]. cbn [filter]. rewrite (H x (or_introl eq_refl)). apply IH. intros y I. apply H. now right.
Qed.

Section Boundary.
  Context {M : Type}.
  Notation hugr := (hugr op M).
  Variables h repl : hugr.
  Variable sg : subgraph.
  Variables i o parent : N.
  Hypothesis W : wf h.
  Hypothesis Wr : wf repl.
  Hypothesis SO : subgraph_ok h sg parent.
  Hypothesis RO : replacement_ok repl sg i o.
  Notation gone := (gone sg).
  Notation left := (left sg).
  Notation interior := (interior repl i o).
  Notation provides := (provides h repl sg i o).

  Lemma linked_outputs_iff : forall (g : hugr) n k s, In s (linked_outputs g n k) <-> In (s, (n, k)) (h_links g).
  Proof.
    intros g n k s. unfold linked_outputs. rewrite in_map_iff. split.
    - intros ([a b] & E & I). cbn in E. subst a. apply filter_In in I. destruct I as [I E]. apply ep_eqb_iff in E. cbn in E. now subst b.
    - intros I. exists (s, (n, k)). split; [reflexivity|]. apply filter_In. split; [exact I|]. now apply ep_eqb_iff.
  Qed.

  Lemma source_exact : forall (g : hugr) e s, wf g -> linked_outputs g (fst e) (snd e) = [s] -> source_of g e = Some s.
  Proof.
    intros g e s Wg E. unfold source_of, single_linked_output. rewrite E.
    assert (I : In (s, (fst e, snd e)) (h_links g)) by (apply linked_outputs_iff; rewrite E; now left).
    destruct (wf_links g Wg _ I) as [_ P]. cbn [snd] in P. apply valid_port_in in P. now rewrite P.
  Qed.

  (** The source of an input of the subgraph. *)
  Lemma input_source : forall p part, nth_error (sg_in sg) p = Some part -> exists s, part_source h part = Some s /\ left (fst s) /\
    In (fst s) (h_nodes h) /\ snd s < h_out h (fst s) /\ forall e l, In e part -> In l (h_links h) -> snd l = e -> fst l = s.
  Proof.
    intros p part E. destruct (so_in _ _ _ SO p part E) as (Ne & s & L & U). exists s. destruct part as [|e part]; [congruence|].
    destruct (so_in_linked _ _ _ SO p _ e E (or_introl eq_refl)) as (_ & Len).
    destruct (linked_outputs h (fst e) (snd e)) as [|s' [|]] eqn:X; try discriminate.
    assert (I : In (s', (fst e, snd e)) (h_links h)) by (apply linked_outputs_iff; rewrite X; now left).
    assert (s' = s) as ->. { apply (U e _ (or_introl eq_refl) I). cbn. now destruct e. }
    destruct (wf_links h W _ I) as [[P1 P2] _]. cbn [fst] in P1, P2.
    split; [|auto]. cbn. now apply source_exact.
  Qed.

  Definition hsrc (p : nat) : endpoint :=
    match nth_error (sg_in sg) p with Some part => match part_source h part with Some s => s | None => (0%N, 0) end | None => (0%N, 0) end.
  Definition rsrc (q : nat) : endpoint := match linked_outputs repl o q with [s] => s | _ => (0%N, 0) end.

  Lemma hsrc_facts : forall p, p < length (sg_in sg) -> left (fst (hsrc p)) /\ out_port h (hsrc p) /\
    (forall d, provides (Host (hsrc p)) d -> provides (Repl (i, p)) d) /\ provides (Repl (i, p)) (Host (hsrc p)).
  Proof.
    intros p L. destruct (nth_error (sg_in sg) p) as [part|] eqn:E; [|apply nth_error_None in E; lia].
    destruct (input_source p part E) as (s & S1 & S2 & S3 & S4 & S5). unfold hsrc. rewrite E, S1. split; [exact S2|]. split; [split; assumption|].
    assert (G : forall d, provides (Host s) d -> provides (Repl (i, p)) d).
    { intros d P. destruct part as [|e part]; [discriminate|]. cbn in S1. unfold source_of, single_linked_output in S1.
      destruct (valid_port h (fst e) Inc (snd e)); [|discriminate]. destruct (linked_outputs h (fst e) (snd e)) as [|s' [|]] eqn:X; try discriminate. injection S1 as ->.
      apply pr_input with (e :: part) e s; [exact E|now left| |exact P]. rewrite (surjective_pairing e). apply linked_outputs_iff. rewrite X. now left. }
    split; [exact G|]. apply G. now apply pr_host.
  Qed.

  Lemma rsrc_facts : forall q, q < length (sg_out sg) -> linked_outputs repl o q = [rsrc q] /\ source_of repl (o, q) = Some (rsrc q) /\
    (interior (fst (rsrc q)) \/ fst (rsrc q) = i /\ snd (rsrc q) < length (sg_in sg)) /\ out_port repl (rsrc q).
  Proof.
    intros q L. destruct (ro_out _ _ _ _ RO q L) as (s & E & C). unfold rsrc. rewrite E. split; [reflexivity|]. split; [now apply source_exact|]. split; [exact C|].
    assert (I : In (s, (o, q)) (h_links repl)) by (apply linked_outputs_iff; rewrite E; now left). exact (proj1 (wf_links repl Wr _ I)).
  Qed.

  Lemma i_not_o : i <> o.
  Proof.
    destruct (ro_kids _ _ _ _ RO) as (rest & E). pose proof (wf_kids_once repl Wr (h_entry repl)) as D. rewrite E in D.
    inversion D as [|? ? N_ _]; subst. intros ->. apply N_. now left.
  Qed.

  Lemma not_interior_i : ~ interior i.
  Proof. intros (_ & _ & X & _). now apply X. Qed.

  Definition from_inputs : list endpoint := map (pair i) (seq 0 (length (sg_in sg))).
  Lemma from_inputs_iff : forall e, In e from_inputs <-> fst e = i /\ snd e < length (sg_in sg).
  Proof.
    intros [n p]. unfold from_inputs. rewrite in_map_iff. cbn [fst snd]. split.
    - intros (k & E & I). apply in_seq in I. injection E as <- <-. split; [reflexivity|lia].
    - intros [-> L]. exists p. split; [reflexivity|]. apply in_seq. lia.
  Qed.
  Lemma from_inputs_nodup : NoDup from_inputs.
  Proof. unfold from_inputs. apply FinFun.Injective_map_NoDup; [intros a b E; now injection E|apply seq_NoDup]. Qed.

  Definition via_input (l : link) : endpoint * endpoint := (hsrc (snd (fst l)), snd l).

  Lemma incoming_spec : exists L, incoming_boundary h repl sg i o = Some L /\
    Permutation L (map via_input (filter (fun l => mem_ep (fst l) from_inputs && negb (N.eqb (fst (snd l)) o)) (h_links repl))).
  Proof.
    set (g := fun p => map (fun t => (hsrc p, t)) (filter (fun t => negb (N.eqb (fst t) o)) (linked_inputs repl i p))).
    exists (flat_map (fun x : nat * list endpoint => g (fst x)) (enumerate (sg_in sg))). split.
    - unfold incoming_boundary. apply opt_flat_some. intros [p part] I. apply enumerate_iff in I. cbn [fst snd].
      assert (L : p < length (sg_in sg)) by (apply nth_error_Some; congruence).
      destruct (input_source p part I) as (s & S1 & _). rewrite S1.
      unfold inputs_at, inputs_of. cbn [fst snd]. pose proof (ro_in _ _ _ _ RO p L) as P. apply valid_port_out in P. rewrite P.
      rewrite (opt_flat_some _ _ _ (fun t => if negb (N.eqb (fst t) o) then [Repl t] else
          match nth_error (sg_out sg) (snd t) with Some e => map Host (linked_inputs h (fst e) (snd e)) | None => [] end)).
      + f_equal. unfold g. unfold hsrc. rewrite I, S1. clear. induction (linked_inputs repl i p) as [|t ts IH]; [reflexivity|].
        cbn [flat_map filter]. rewrite flat_map_app, map_app, IH. destruct (negb (N.eqb (fst t) o)); [reflexivity|].
        destruct (nth_error (sg_out sg) (snd t)) as [e|]; [|reflexivity]. replace (flat_map as_repl (map Host (linked_inputs h (fst e) (snd e)))) with (@nil endpoint); [reflexivity|].
        symmetry. clear. induction (linked_inputs h (fst e) (snd e)) as [|x l IH]; [reflexivity|exact IH].
      + intros t It. unfold linked_inputs in It. apply in_map_iff in It. destruct It as ([a b] & E & It). cbn in E. subst b. apply filter_In in It.
        destruct It as [It Ea]. apply ep_eqb_iff in Ea. cbn in Ea. subst a. rewrite orb_false_r. destruct (N.eqb_spec (fst t) o) as [E|_]; [|reflexivity]. cbn [negb].
        destruct t as [t k]. cbn in E. subst t. cbn [snd]. destruct (ro_from_in _ _ _ _ RO p _ It L) as [(_ & _ & _ & K)|[_ K]]; [now destruct K|]. cbn [snd] in K.
        destruct (nth_error (sg_out sg) k) as [e|] eqn:Ek; [|apply nth_error_None in Ek; lia].
        destruct (so_out _ _ _ SO e) as (_ & P'); [eapply nth_error_In; eassumption|]. destruct e as [e1 e2]. apply valid_port_out in P'. cbn [fst snd]. now rewrite P'.
    - rewrite <- (flat_map_map _ _ _ g fst), enumerate_fst. unfold g.
      apply Permutation_trans with (map via_input (filter (fun l : link => negb (N.eqb (fst (snd l)) o)) (flat_map (fun e : endpoint => filter (fun l : link => ep_eqb (fst l) e) (h_links repl)) from_inputs))).
      + apply Permutation_refl'. unfold from_inputs. rewrite flat_map_map, filter_flat_map. etransitivity; [|symmetry; apply map_flat_map]. apply flat_map_in_ext. intros p _.
        unfold linked_inputs. clear. induction (h_links repl) as [|l ls IH]; [reflexivity|]. cbn [filter].
        destruct (ep_eqb (fst l) (i, p)) eqn:E; [|exact IH]. cbn [map filter]. destruct (negb (N.eqb (fst (snd l)) o)); [|exact IH]. cbn [map]. rewrite IH.
        f_equal. apply ep_eqb_iff in E. unfold via_input. now rewrite E.
      + apply Permutation_map. eapply Permutation_trans; [apply filter_perm, group_perm, from_inputs_nodup|]. rewrite filter_filter. apply Permutation_refl.
  Qed.

  (** The outputs: the position of a port. *)
  Fixpoint index_of (e : endpoint) (l : list endpoint) (k : nat) : nat :=
    match l with [] => k | x :: l => if ep_eqb x e then k else index_of e l (S k) end.
  Lemma index_nth : forall l e q k, NoDup l -> nth_error l q = Some e -> index_of e l k = k + q.
  Proof.
    induction l as [|x l IH]; intros e q k D E; [destruct q; discriminate|]. cbn [index_of]. inversion D as [|? ? Nx D']; subst. destruct q as [|q].
    - injection E as ->. rewrite (proj2 (ep_eqb_iff e e) eq_refl). lia.
    - cbn in E. destruct (ep_eqb x e) eqn:X; [apply ep_eqb_iff in X; subst x; exfalso; apply Nx; eapply nth_error_In; eassumption|].
      rewrite (IH e q (S k) D' E). lia.
  Qed.
  Definition pos (e : endpoint) : nat := index_of e (sg_out sg) 0.
  Lemma pos_nth : forall q e, nth_error (sg_out sg) q = Some e -> pos e = q.
  Proof. intros q e E. unfold pos. now rewrite (index_nth _ _ q 0 (so_out_once _ _ _ SO) E). Qed.
  Lemma pos_in : forall e, In e (sg_out sg) -> nth_error (sg_out sg) (pos e) = Some e /\ pos e < length (sg_out sg).
  Proof.
    intros e I. apply In_nth_error in I. destruct I as (q & E). rewrite (pos_nth q e E). split; [exact E|]. apply nth_error_Some. congruence.
  Qed.

  (** Where the value of an output of the subgraph comes from. *)
  Definition final (q : nat) : bport := if N.eqb (fst (rsrc q)) i then Host (hsrc (snd (rsrc q))) else Repl (rsrc q).

  Lemma final_provides : forall q e, nth_error (sg_out sg) q = Some e -> provides (Host e) (final q).
  Proof.
    intros q e E. assert (L : q < length (sg_out sg)) by (apply nth_error_Some; congruence).
    destruct (rsrc_facts q L) as (R1 & R2 & R3 & _). apply pr_output with q (rsrc q); [exact E| |].
    - apply linked_outputs_iff. rewrite R1. now left.
    - unfold final. destruct (N.eqb_spec (fst (rsrc q)) i) as [Ei|Ni].
      + destruct R3 as [R3|[_ R3]]; [rewrite Ei in R3; destruct (not_interior_i R3)|]. destruct (rsrc q) as [a b]. cbn [fst snd] in *. subst a. now apply hsrc_facts.
      + destruct R3 as [R3|[R3 _]]; [now apply pr_repl|contradiction].
  Qed.

  Lemma final_output : forall q, q < length (sg_out sg) -> output_at h repl sg i o true q = Some (final q).
  Proof.
    intros q L. destruct (rsrc_facts q L) as (R1 & R2 & R3 & _). unfold output_at. rewrite R2, orb_false_r. unfold final.
    destruct (N.eqb_spec (fst (rsrc q)) i) as [Ei|Ni]; [|reflexivity]. cbn [negb]. destruct R3 as [R3|[_ R3]]; [rewrite Ei in R3; destruct (not_interior_i R3)|].
    destruct (nth_error (sg_in sg) (snd (rsrc q))) as [part|] eqn:E; [|apply nth_error_None in E; lia].
    destruct (input_source _ part E) as (s & S1 & _). unfold hsrc. now rewrite E, S1.
  Qed.

  Definition via_output (l : link) : bport * bport := (final (pos (fst l)), Host (snd l)).

  Lemma outgoing_spec : exists A B, outgoing_boundary h repl sg i o = Some A /\ host_to_host_boundary h repl sg i o = Some B /\
    Permutation (map (fun x => (Repl (fst x), Host (snd x))) A ++ map (fun x => (Host (fst x), Host (snd x))) B)
                (map via_output (filter (fun l => mem_ep (fst l) (sg_out sg)) (h_links h))).
  Proof.
    set (a := fun x : nat * endpoint => match final (fst x) with Repl s => map (fun t => (s, t)) (linked_inputs h (fst (snd x)) (snd (snd x))) | Host _ => [] end).
    set (b := fun x : nat * endpoint => match final (fst x) with Host s => map (fun t => (s, t)) (linked_inputs h (fst (snd x)) (snd (snd x))) | Repl _ => [] end).
    exists (flat_map a (enumerate (sg_out sg))), (flat_map b (enumerate (sg_out sg))).
    assert (V : forall q e, In (q, e) (enumerate (sg_out sg)) -> inputs_of h e = Some (linked_inputs h (fst e) (snd e)) /\ output_at h repl sg i o true q = Some (final q)).
    { intros q e I. apply enumerate_iff in I. assert (L : q < length (sg_out sg)) by (apply nth_error_Some; congruence). split; [|now apply final_output].
      destruct (so_out _ _ _ SO e) as (_ & P); [eapply nth_error_In; eassumption|]. destruct e as [e1 e2]. unfold inputs_of. cbn [fst snd]. apply valid_port_out in P. now rewrite P. }
    split; [|split].
    - unfold outgoing_boundary. apply opt_flat_some. intros [q e] I. destruct (V q e I) as [V1 V2]. cbn [fst snd]. rewrite V1, V2. unfold a. cbn [fst snd]. now destruct (final q).
    - unfold host_to_host_boundary. apply opt_flat_some. intros [q e] I. destruct (V q e I) as [V1 V2]. cbn [fst snd]. rewrite V1, V2. unfold b. cbn [fst snd]. now destruct (final q).
    - rewrite !map_flat_map. eapply Permutation_trans; [apply flat_map_two|].
      apply Permutation_trans with (map via_output (flat_map (fun e : endpoint => filter (fun l : link => ep_eqb (fst l) e) (h_links h)) (sg_out sg))).
      + apply Permutation_refl'. rewrite <- (enumerate_snd _ (sg_out sg)) at 2. rewrite flat_map_map. etransitivity; [|symmetry; apply map_flat_map]. apply flat_map_in_ext. intros [q e] I. apply enumerate_iff in I.
        unfold a, b. cbn [fst snd]. apply pos_nth in I.
        transitivity (map (fun t => (final q, Host t)) (linked_inputs h (fst e) (snd e))).
        * destruct (final q); cbn [map app]; rewrite ?app_nil_r, map_map; reflexivity.
        * unfold linked_inputs. rewrite map_map. rewrite (filter_in_ext _ (fun l => ep_eqb (fst l) (fst e, snd e)) (fun l => ep_eqb (fst l) e)) by (intros; now destruct e).
          apply map_ext_in. intros l Il. apply filter_In in Il. destruct Il as [_ El]. apply ep_eqb_iff in El. unfold via_output. now rewrite El, I.
      + apply Permutation_map, group_perm, (so_out_once _ _ _ SO).
  Qed.

  (** The provider of a value is unique. *)
  Lemma provides_unique : forall b d d', (match b with Repl e => out_port repl e | Host e => out_port h e end) -> provides b d -> provides b d' -> d = d'.
  Proof.
    assert (G : forall b d, provides b d ->
      match b with
      | Host e => if memN (fst e) (sg_nodes sg) then In e (sg_out sg) /\ d = final (pos e) else d = Host e
      | Repl e => interior (fst e) /\ d = Repl e \/ fst e = i /\ snd e < length (sg_in sg) /\ d = Host (hsrc (snd e))
      end).
    { intros b d P. induction P as [e L|e I|p part e s d E I IL P IH|q e s d E IL P IH].
      - unfold ReplaceSpec.left, ReplaceSpec.gone in L. apply memN_false in L. now rewrite L.
      - now left.
      - right. assert (Lp : p < length (sg_in sg)) by (apply nth_error_Some; congruence). cbn [fst snd]. split; [reflexivity|]. split; [exact Lp|].
        destruct (input_source p part E) as (s' & S1 & S2 & _ & _ & S5). pose proof (S5 e _ I IL eq_refl) as X. cbn in X. subst s'.
        unfold ReplaceSpec.left, ReplaceSpec.gone in S2. apply memN_false in S2. rewrite S2 in IH. unfold hsrc. now rewrite E, S1.
      - assert (Lq : q < length (sg_out sg)) by (apply nth_error_Some; congruence). destruct (so_out _ _ _ SO e) as (G & _); [eapply nth_error_In; eassumption|].
        apply memN_iff in G. rewrite G. split; [eapply nth_error_In; eassumption|]. rewrite (pos_nth q e E). destruct (rsrc_facts q Lq) as (R1 & _).
        apply linked_outputs_iff in IL. rewrite R1 in IL. destruct IL as [<-|[]]. unfold final. destruct IH as [[I D]|(Ei & _ & D)].
        + destruct (N.eqb_spec (fst (rsrc q)) i) as [X|_]; [rewrite X in I; destruct (not_interior_i I)|exact D].
        + now rewrite Ei, N.eqb_refl. }
    intros b d d' _ P P'. apply G in P, P'. destruct b as [e|e].
    - destruct (memN (fst e) (sg_nodes sg)); [destruct P as [_ ->], P' as [_ ->]; reflexivity|congruence].
    - destruct P as [[I ->]|(E & _ & ->)], P' as [[I' ->]|(E' & _ & ->)]; try reflexivity; [rewrite E' in I|rewrite E in I']; exfalso; now apply not_interior_i.
  Qed.
End Boundary.
