(** Proofs about linking: the result as a whole. *)
From Coq Require Import List Bool NArith Arith Lia Permutation.
From Verif Require Import GraphModel GraphSpec GraphProofs GraphRemove InsertModel InsertSpec InsertProofs InsertTree InsertForest LinkModel LinkSpec LinkSwap LinkProofs.
Import ListNotations.

Lemma lookup_perm : forall A (a b : list (N * A)), NoDup (map fst a) -> Permutation a b -> forall x, lookup a x = lookup b x.
Proof.
  intros A a b D P x. assert (D' : NoDup (map fst b)) by (apply (Permutation_NoDup (Permutation_map fst P)); exact D).
  destruct (lookup a x) as [v|] eqn:E.
  - apply lookup_In in E. symmetry. apply lookup_nodup; [exact D'|]. now apply (Permutation_in _ P).
  - apply lookup_None in E. symmetry. apply lookup_None. intros I. apply E. now apply (Permutation_in _ (Permutation_sym (Permutation_map fst P))).
Qed.
Lemma lookup_map_snd : forall A B (g : A -> B) (l : list (N * A)) x, lookup (map (fun e => (fst e, g (snd e))) l) x = option_map g (lookup l x).
Proof. intros A B g. induction l as [|[k v] l IH]; intros x; [reflexivity|]. cbn [map fst snd lookup]. destruct (N.eqb k x); [reflexivity|apply IH]. Qed.
Lemma lookup_map_fst : forall A (f : N -> N) (l : list (N * A)) x, (forall k, In k (map fst l) -> f k = f x -> k = x) ->
  lookup (map (fun e => (f (fst e), snd e)) l) (f x) = lookup l x.
Proof.
  intros A f. induction l as [|[k v] l IH]; intros x H; [reflexivity|]. cbn [map fst snd lookup]. destruct (N.eqb_spec k x) as [->|Ne].
  - now rewrite N.eqb_refl.
  - destruct (N.eqb_spec (f k) (f x)) as [E|_]; [exfalso; apply Ne, H; [now left|exact E]|]. apply IH. intros z I. apply H. now right.
Qed.

Lemma keep_map : forall (p : link -> bool) (g : link -> link) (k : link -> list link) ls,
  (forall l, In l ls -> k l = if p (g l) then [g l] else []) -> filter p (map g ls) = flat_map k ls.
Proof.
  intros p g k. induction ls as [|l ls IH]; intros H; [reflexivity|]. cbn [map filter flat_map]. rewrite (H l (or_introl eq_refl)), <- IH by (intros x I; apply H; now right).
  now destruct (p (g l)).
Qed.
Lemma keep_filter_map : forall (p q : link -> bool) (g : link -> link) (k : link -> list link) ls,
  (forall l, In l ls -> k l = if q l && p (g l) then [g l] else []) -> filter p (map g (filter q ls)) = flat_map k ls.
Proof.
  intros p q g k. induction ls as [|l ls IH]; intros H; [reflexivity|]. cbn [filter flat_map]. rewrite (H l (or_introl eq_refl)), <- IH by (intros x I; apply H; now right).
  destruct (q l); cbn [andb map filter app]; [|reflexivity]. now destruct (p (g l)).
Qed.

Lemma alive_split : forall (P Q : list (N * N)), (forall o n, In (o, n) P -> ~ In n (map fst P)) -> (forall o n, In (o, n) Q -> ~ In n (map fst (P ++ Q))) ->
  forall a o n b, P ++ Q = a ++ (o, n) :: b -> ~ In n (map fst a) /\ n <> o.
Proof.
  intros P Q HP HQ a o n b E. apply app_eq_app in E. destruct E as (l & [[E1 E2]|[E1 E2]]).
  - destruct l as [|x l].
    + cbn in E2. subst Q. specialize (HQ o n (or_introl eq_refl)). rewrite app_nil_r in E1. subst P. rewrite map_app, in_app_iff in HQ. cbn [map fst] in HQ.
      split; [tauto|]. intros ->. apply HQ. right. now left.
    + cbn in E2. injection E2 as <- _. assert (I : In (o, n) P) by (rewrite E1; apply in_app_iff; right; now left). specialize (HP o n I). rewrite E1, map_app, in_app_iff in HP. cbn [map fst] in HP.
      split; [tauto|]. intros ->. apply HP. right. now left.
  - assert (I : In (o, n) Q) by (rewrite E2; apply in_app_iff; right; now left). specialize (HQ o n I). rewrite E1. rewrite E2, !map_app, !in_app_iff in HQ. cbn [map fst] in HQ.
    split; [rewrite map_app, in_app_iff; tauto|]. intros ->. apply HQ. right. right. now left.
Qed.

Lemma substitutes_iff : forall children sn tn, In (sn, tn) (substitutes children) <-> In (sn, UseExisting tn) children.
Proof.
  intros children sn tn. unfold substitutes. rewrite in_flat_map. split.
  - intros ([c [rs|t]] & I & X); cbn [fst snd] in X; [destruct X|]. destruct X as [X|[]]. now injection X as <- <-.
  - intros I. exists (sn, UseExisting tn). split; [exact I|now left].
Qed.
Lemma replacements_iff : forall children r sn, In (r, sn) (replacements children) <-> exists rs, In (sn, Add rs) children /\ In r rs.
Proof.
  intros children r sn. unfold replacements. rewrite in_flat_map. split.
  - intros ([c [rs|t]] & I & X); cbn [fst snd] in X; [|destruct X]. apply in_map_iff in X. destruct X as (x & E & J). injection E as <- <-. now exists rs.
  - intros (rs & I & J). exists (sn, Add rs). split; [exact I|]. apply in_map_iff. now exists r.
Qed.
Lemma keys_unique : forall A (l : list (N * A)) k a b, NoDup (map fst l) -> In (k, a) l -> In (k, b) l -> a = b.
Proof. intros A l k a b D I J. apply (lookup_nodup _ _ _ _ D) in I, J. congruence. Qed.
Lemma substitutes_nodup : forall children, NoDup (map fst children) -> NoDup (map fst (substitutes children)).
Proof.
  induction children as [|[c d] children IH]; intros D; [constructor|]. cbn [map fst] in D. inversion D as [|? ? N_ D']; subst. specialize (IH D').
  change (substitutes ((c, d) :: children)) with (match d with Add _ => [] | UseExisting tn => [(c, tn)] end ++ substitutes children).
  destruct d as [rs|tn]; [exact IH|]. cbn [app map fst]. constructor; [|exact IH]. intros I. apply N_. apply in_map_iff in I. destruct I as ([a b] & <- & I).
  apply substitutes_iff in I. apply (in_map fst) in I. exact I.
Qed.

Section Merge.
  Context {O M : Type}.
  Variable o_default : O.
  Notation hugr := (hugr O M).
  Variables h other : hugr.
  Variable parent : option N.
  Variable children : list (N * directive).
  Hypothesis W : wf h.
  Hypothesis Wo : wf other.
  Hypothesis ND : NoDup (map fst children).
  Hypothesis A : acceptable other parent children.
  Hypothesis K : linkable h other parent children.

  Notation subs := (substitutes children).
  Notation reps := (replacements children).
  Notation ins := (inserted other parent children).
  Notation old := (gone h children).

  Lemma sub_child : forall sn, In sn (map fst subs) -> In sn (map fst children) /\ ~ added children sn.
  Proof.
    intros sn I. apply in_map_iff in I. destruct I as ([a tn] & <- & I). apply substitutes_iff in I. cbn [fst]. split; [apply (in_map fst) in I; exact I|].
    intros (rs & J). pose proof (keys_unique _ _ _ _ _ ND I J). discriminate.
  Qed.
  Lemma child_split : forall sn, In sn (map fst children) -> added children sn \/ In sn (map fst subs).
  Proof.
    intros sn I. apply in_map_iff in I. destruct I as ([a [rs|tn]] & <- & I); [left; now exists rs|]. right. apply in_map_iff. exists (a, tn). split; [reflexivity|]. now apply substitutes_iff.
  Qed.
  Lemma added_child : forall sn, added children sn -> In sn (map fst children).
  Proof. intros sn (rs & I). apply (in_map fst) in I. exact I. Qed.
  Lemma child_top : forall sn, In sn (map fst children) -> h_parent other sn = Some (h_root other).
  Proof. apply (ac_root _ _ _ A). Qed.

  (** A module child below the entrypoint or below another one *)
  Lemma child_below_entry : forall sn, In sn (map fst children) -> parent <> None -> ~ below other sn (h_entry other).
  Proof.
    intros sn I P B. pose proof (child_top sn I) as T. destruct (N.eq_dec (h_entry other) (h_root other)) as [E|E].
    - rewrite (ac_whole _ _ _ A P E) in I. destruct I.
    - inversion B as [|? p ? Ep U]; subst; [exact (ac_entry _ _ _ A P E I)|]. rewrite T in Ep. injection Ep as <-. apply (up_root other Wo) in U. congruence.
  Qed.
  Lemma ins_not_sub : forall x, ins x -> ~ In x (map fst subs).
  Proof.
    intros x [[P B]|(sn & Ad & B)] I; apply sub_child in I; destruct I as [I N_].
    - exact (child_below_entry x I P B).
    - rewrite (top_only other Wo x sn (child_top x I) (child_top sn (added_child sn Ad)) B) in N_. contradiction.
  Qed.
  Lemma added_ins : forall sn, added children sn -> ins sn.
  Proof. intros sn Ad. right. exists sn. split; [exact Ad|constructor]. Qed.
  Lemma entry_ins : parent <> None -> ins (h_entry other).
  Proof. intros P. left. split; [exact P|constructor]. Qed.
  Lemma ins_kid : forall x c, ins x -> h_parent other c = Some x -> ins c.
  Proof. intros x c [[P B]|(sn & Ad & B)] E; [left; split; [exact P|now apply up_next with x]|right; exists sn; split; [exact Ad|now apply up_next with x]]. Qed.
  Lemma ins_live : forall x, ins x -> In x (h_nodes other).
  Proof.
    assert (G : forall x r, In r (h_nodes other) -> below other x r -> In x (h_nodes other)).
    { intros x r I B. inversion B as [|? p ? E U]; subst; [exact I|]. apply (wf_parent_live other Wo) in E. tauto. }
    intros x [[P B]|(sn & Ad & B)]; [exact (G x _ (wf_entry other Wo) B)|]. apply (G x sn); [|exact B].
    pose proof (child_top sn (added_child sn Ad)) as T. apply (wf_parent_live other Wo) in T. tauto.
  Qed.
  Lemma rep_live : forall r sn, In (r, sn) reps -> In r (h_nodes h).
  Proof. intros r sn I. destruct (lk_replaced _ _ _ _ K r sn I) as [P _]. apply (wf_parent_live h W) in P. tauto. Qed.
  Lemma gone_live : forall y, old y -> In y (h_nodes h).
  Proof.
    intros y (r & I & B). inversion B as [|? p ? E U]; subst; [|apply (wf_parent_live h W) in E; tauto].
    apply in_map_iff in I. destruct I as ([a sn] & <- & I). exact (rep_live a sn I).
  Qed.
  Lemma gone_top : forall y, h_parent h y = Some (h_root h) -> old y -> In y (map fst reps).
  Proof.
    intros y T (r & I & B). pose proof I as J. apply in_map_iff in J. destruct J as ([a sn] & E & J). cbn [fst] in E. subst a.
    destruct (lk_replaced _ _ _ _ K r sn J) as [P _]. now rewrite (top_only h W y r T P B).
  Qed.
  Lemma root_stays : ~ old (h_root h).
  Proof.
    intros (r & I & B). apply (up_root h W) in B. subst r. apply in_map_iff in I. destruct I as ([a sn] & E & I). cbn [fst] in E. subst a.
    destruct (lk_replaced _ _ _ _ K _ sn I) as [P _]. rewrite (wf_top h W) in P. discriminate.
  Qed.
  Lemma rep_added : forall r sn, In (r, sn) reps -> added children sn.
  Proof. intros r sn I. apply replacements_iff in I. destruct I as (rs & I & _). now exists rs. Qed.

  (** ** After the insertion *)
  Variable nodes : list N.
  Variable roots : list (N * N).
  Variable f : N -> N.
  Variable h1 : hugr.
  Variable m : list (N * N).
  Hypothesis Hn : forall x, In x nodes <-> ins x \/ In x (map fst subs).
  Hypothesis Hr : Permutation roots (link_roots h other parent children).
  Hypothesis Hm : forall x y, lookup m x = Some y <-> In x nodes /\ y = f x.
  Hypothesis G : grafted h other nodes roots f h1.
  Hypothesis W1 : wf h1.
  Hypothesis Hops : forall x, In x nodes -> h_ops h1 (f x) = h_ops other x.
  Hypothesis Hkids : forall x, ins x -> h_kids h1 (f x) = map f (h_kids other x).

  Lemma in_roots : forall r p, In (r, p) roots <-> (parent = Some p /\ r = h_entry other) \/ (p = h_root h /\ In r (map fst children)).
  Proof.
    intros r p. transitivity (In (r, p) (link_roots h other parent children)).
    { split; intros I; [now apply (Permutation_in _ Hr)|now apply (Permutation_in _ (Permutation_sym Hr))]. }
    unfold link_roots. rewrite in_app_iff, !in_map_iff. split.
    - intros [I|(c & E & I)].
      + destruct parent as [q|]; [|destruct I]. destruct I as [E|[]]. injection E as <- <-. now left.
      + injection E as <- <-. right. split; [reflexivity|]. now exists c.
    - intros [[-> ->]|[-> (c & <- & I)]]; [left; now left|]. right. exists c. auto.
  Qed.
  Lemma roots_once : NoDup (map fst roots).
  Proof.
    apply (Permutation_NoDup (Permutation_sym (Permutation_map fst Hr))). unfold link_roots. rewrite map_app, map_map. cbn [fst].
    assert (NE : parent <> None -> ~ In (h_entry other) (map fst children)) by (intros Np I; apply (child_below_entry (h_entry other) I Np); constructor).
    destruct parent as [p|]; [|exact ND]. cbn [map fst app]. constructor; [|exact ND]. apply NE. discriminate.
  Qed.

  Lemma f_fresh : forall x, In x nodes -> ~ In (f x) (h_nodes h). Proof. apply (gr_fresh _ _ _ _ _ _ G). Qed.
  Lemma f_inj : forall x y, In x nodes -> In y nodes -> f x = f y -> x = y. Proof. apply (gr_inj _ _ _ _ _ _ G). Qed.
  Lemma sub_node : forall x, In x (map fst subs) -> In x nodes. Proof. intros x I. apply Hn. now right. Qed.
  Lemma ins_node : forall x, ins x -> In x nodes. Proof. intros x I. apply Hn. now left. Qed.

  Lemma host_up : forall y z, up (h_parent h1) y z -> In y (h_nodes h) -> In z (h_nodes h) /\ up (h_parent h) y z.
  Proof.
    intros y z U. induction U as [y|y p z E U IH]; intros I; [split; [exact I|constructor]|].
    destruct (gr_host _ _ _ _ _ _ G y I) as (_ & _ & _ & _ & Ep & _). rewrite Ep in E. destruct (wf_parent_live h W y p E) as (_ & Ip & _).
    destruct (IH Ip) as [A1 A2]. split; [exact A1|now apply up_next with p].
  Qed.
  Lemma host_up_iff : forall y z, In y (h_nodes h) -> (up (h_parent h1) y z <-> up (h_parent h) y z).
  Proof.
    intros y z I. split; [intros U; now apply (host_up y z U I)|]. intros U. induction U as [y|y p z E U IH]; [constructor|].
    apply up_next with p; [destruct (gr_host _ _ _ _ _ _ G y I) as (_ & _ & _ & _ & Ep & _); congruence|]. apply IH. apply (wf_parent_live h W) in E. tauto.
  Qed.

  (** A parent of a copy is the chosen parent or the copy of the parent. *)
  Lemma copy_parent : forall x q, In x nodes -> h_parent h1 (f x) = Some q ->
    In (x, q) roots \/ exists p, h_parent other x = Some p /\ In p nodes /\ ins p /\ q = f p.
  Proof.
    intros x q I E. destruct (is_root roots x) eqn:R.
    - left. apply memN_iff, in_map_iff in R. destruct R as ([r p] & <- & J). cbn [fst] in *. rewrite (gr_root_parent _ _ _ _ _ _ G r p J) in E. now injection E as <-.
    - right. rewrite (gr_parent _ _ _ _ _ _ G x I R) in E. destruct (h_parent other x) as [p|] eqn:Ep; [|discriminate]. injection E as <-. exists p. split; [reflexivity|].
      assert (Nr : forall q', ~ In (x, q') roots). { intros q' J. apply memN_false in R. apply R. apply in_map_iff. exists (x, q'). auto. }
      assert (Ip : ins p).
      { apply Hn in I. destruct I as [I|I].
        - destruct I as [[P B]|(sn & Ad & B)]; inversion B as [|? p' ? E' U]; subst.
          + exfalso. assert (Eq : exists q', parent = Some q') by (destruct parent as [q'|]; [now exists q'|congruence]). destruct Eq as (q' & Eq). apply (Nr q'), in_roots. now left.
          + rewrite Ep in E'. injection E' as <-. left. auto.
          + exfalso. apply (Nr (h_root h)), in_roots. right. split; [reflexivity|now apply added_child].
          + rewrite Ep in E'. injection E' as <-. right. exists sn. auto.
        - exfalso. apply (Nr (h_root h)), in_roots. right. split; [reflexivity|]. now apply sub_child. }
      split; [now apply ins_node|]. auto.
  Qed.

  Lemma copy_up_host : forall x z, In x nodes -> In z (h_nodes h) -> up (h_parent h1) (f x) z -> exists r p, In (r, p) roots /\ up (h_parent h) p z.
  Proof.
    intros x z I Iz U. remember (f x) as y eqn:Ey. revert x I Ey. induction U as [y|y q z E U IH]; intros x I ->; [exfalso; exact (f_fresh x I Iz)|].
    destruct (copy_parent x q I E) as [J|(p & Ep & Ip & _ & ->)].
    - exists x, q. split; [exact J|]. apply host_up_iff; [|exact U]. apply in_roots in J. destruct J as [[P _]|[-> _]]; [now apply (lk_parent _ _ _ _ K)|apply (wf_root h W)].
    - exact (IH Iz p Ip eq_refl).
  Qed.

  Lemma copy_up_sub : forall x sn, In x nodes -> In sn (map fst subs) -> up (h_parent h1) (f x) (f sn) -> x = sn.
  Proof.
    intros x sn I Is U. remember (f x) as y eqn:Ey. remember (f sn) as z eqn:Ez. revert x I Ey. induction U as [y|y q z E U IH]; intros x I Ey.
    - apply f_inj; [exact I|now apply sub_node|congruence].
    - subst y z. exfalso. destruct (copy_parent x q I E) as [J|(p & Ep & Ip & Pp & ->)].
      + assert (Iq : In q (h_nodes h)) by (apply in_roots in J; destruct J as [[P _]|[-> _]]; [now apply (lk_parent _ _ _ _ K)|apply (wf_root h W)]).
        destruct (host_up q _ U Iq) as [X _]. exact (f_fresh sn (sub_node sn Is) X).
      + assert (p = sn) by exact (IH eq_refl p Ip eq_refl). subst p. exact (ins_not_sub sn Pp Is).
  Qed.

  (** ** The replacements *)
  Variables use rep : list (N * N).
  Hypothesis Pu : Permutation use subs.
  Hypothesis Pr : Permutation rep reps.
  Let P := map (fun e => (f (fst e), snd e)) use.
  Let Q := map (fun e => (fst e, f (snd e))) rep.

  Lemma in_P : forall o n, In (o, n) P <-> exists sn, In (sn, n) subs /\ o = f sn.
  Proof.
    intros o n. unfold P. rewrite in_map_iff. split.
    - intros ([a b] & E & I). injection E as <- <-. exists a. split; [now apply (Permutation_in _ Pu)|reflexivity].
    - intros (sn & I & ->). exists (sn, n). split; [reflexivity|now apply (Permutation_in _ (Permutation_sym Pu))].
  Qed.
  Lemma in_Q : forall o n, In (o, n) Q <-> exists sn, In (o, sn) reps /\ n = f sn.
  Proof.
    intros o n. unfold Q. rewrite in_map_iff. split.
    - intros ([a b] & E & I). injection E as <- <-. exists b. split; [now apply (Permutation_in _ Pr)|reflexivity].
    - intros (sn & I & ->). exists (o, sn). split; [reflexivity|now apply (Permutation_in _ (Permutation_sym Pr))].
  Qed.
  Lemma keys_P : forall o, In o (map fst P) <-> exists sn, In sn (map fst subs) /\ o = f sn.
  Proof.
    intros o. rewrite in_map_iff. split.
    - intros ([a b] & <- & I). apply in_P in I. destruct I as (sn & I & ->). exists sn. split; [apply (in_map fst) in I; exact I|reflexivity].
    - intros (sn & I & ->). apply in_map_iff in I. destruct I as ([a b] & <- & I). exists (f a, b). split; [reflexivity|]. apply in_P. now exists a.
  Qed.
  Lemma keys_Q : forall o, In o (map fst Q) <-> In o (map fst reps).
  Proof.
    intros o. rewrite !in_map_iff. split.
    - intros ([a b] & <- & I). apply in_Q in I. destruct I as (sn & I & ->). now exists (a, sn).
    - intros ([a b] & <- & I). exists (a, f b). split; [reflexivity|]. apply in_Q. now exists b.
  Qed.
  Lemma rep_key_live : forall r, In r (map fst reps) -> In r (h_nodes h).
  Proof. intros r I. apply in_map_iff in I. destruct I as ([a b] & <- & I). exact (rep_live a b I). Qed.
  Lemma sub_top : forall sn tn, In (sn, tn) subs -> h_parent h tn = Some (h_root h) /\ In tn (h_nodes h) /\ h_out other sn <= h_out h tn.
  Proof. intros sn tn I. destruct (lk_existing _ _ _ _ K sn tn I) as [A1 A2]. split; [exact A1|]. split; [|exact A2]. apply (wf_parent_live h W) in A1. tauto. Qed.
  Lemma host_parent : forall y, In y (h_nodes h) -> h_parent h1 y = h_parent h y.
  Proof. intros y I. destruct (gr_host _ _ _ _ _ _ G y I) as (_ & _ & _ & _ & E & _). exact E. Qed.
  Lemma host_out : forall y, In y (h_nodes h) -> h_out h1 y = h_out h y.
  Proof. intros y I. destruct (gr_host _ _ _ _ _ _ G y I) as (_ & _ & _ & E & _). exact E. Qed.
  Lemma child_placed : forall sn, In sn (map fst children) -> h_parent h1 (f sn) = Some (h_root h).
  Proof. intros sn I. apply (gr_root_parent _ _ _ _ _ _ G). apply in_roots. right. auto. Qed.

  Lemma host_links_live : forall l, In l (h_links h) -> In (fst (fst l)) (h_nodes h) /\ In (fst (snd l)) (h_nodes h).
  Proof. intros l I. destruct (wf_links h W l I) as [[A1 _] [A2 _]]. auto. Qed.
  Lemma new_links_nodes : forall l, In l (filter (inside nodes) (h_links other)) -> In l (h_links other) /\ In (fst (fst l)) nodes /\ In (fst (snd l)) nodes.
  Proof. intros l I. apply filter_In in I. destruct I as [I J]. apply andb_true_iff in J. rewrite !memN_iff in J. tauto. Qed.

  Lemma links_sole : forall l, In l (h_links h1) -> In (fst (fst l)) (map fst (P ++ Q)) -> sole (h_links h1) l.
  Proof.
    intros l I X. pose proof (gr_links _ _ _ _ _ _ G) as GL. apply (sole_perm _ _ _ (Permutation_sym GL)).
    apply (Permutation_in _ GL) in I. rewrite map_app, in_app_iff, keys_P, keys_Q in X. unfold sole. rewrite filter_app, app_length.
    apply in_app_iff in I. destruct I as [I|I].
    - destruct (host_links_live l I) as [Ls Lt]. destruct X as [(sn & J & E)|X]; [exfalso; rewrite E in Ls; exact (f_fresh sn (sub_node sn J) Ls)|].
      pose proof (lk_host_source _ _ _ _ K l I X) as S. unfold only_source in S. change (filter (fun l' => ep_eqb (snd l') (snd l)) (h_links h)) with (filter (same_target l) (h_links h)) in S.
      replace (filter (same_target l) (map (move_link f) (filter (inside nodes) (h_links other)))) with (@nil link); [cbn [length]; rewrite Nat.add_0_r; exact S|].
      symmetry. destruct (filter (same_target l) (map (move_link f) (filter (inside nodes) (h_links other)))) as [|z zs] eqn:F; [reflexivity|]. exfalso.
      assert (Z : In z (z :: zs)) by now left. rewrite <- F in Z. apply filter_In in Z. destruct Z as [Z E]. apply in_map_iff in Z. destruct Z as (l0 & <- & Z).
      apply new_links_nodes in Z. destruct Z as (_ & _ & Z). apply ep_eqb_iff in E. cbn [move_link snd] in E. apply (f_fresh _ Z). rewrite <- E in Lt. exact Lt.
    - apply in_map_iff in I. destruct I as (l0 & <- & I). apply new_links_nodes in I. destruct I as (I & Ns & Nt). cbn [move_link fst snd] in X.
      destruct X as [(sn & J & E)|X]; [|exfalso; exact (f_fresh _ Ns (rep_key_live _ X))].
      apply f_inj in E; [|exact Ns|now apply sub_node]. rewrite <- E in J. pose proof (lk_new_source _ _ _ _ K l0 I J) as S. unfold only_source in S.
      replace (filter (same_target (move_link f l0)) (h_links h)) with (@nil link).
      2:{ symmetry. destruct (filter (same_target (move_link f l0)) (h_links h)) as [|z zs] eqn:F; [reflexivity|]. exfalso.
          assert (Z : In z (z :: zs)) by now left. rewrite <- F in Z. apply filter_In in Z. destruct Z as [Z E']. destruct (host_links_live z Z) as [_ Lt].
          apply ep_eqb_iff in E'. rewrite E' in Lt. exact (f_fresh _ Nt Lt). }
      cbn [length plus]. rewrite filter_map, map_length.
      etransitivity; [|exact S]. etransitivity; [|apply (filter_filter_le _ (fun l' => ep_eqb (snd l') (snd l0)) (inside nodes))].
      apply Nat.eq_le_incl. f_equal. apply filter_in_ext. intros z Z. apply new_links_nodes in Z. destruct Z as (_ & _ & Zt).
      unfold same_target. apply eq_true_iff_eq. rewrite !ep_eqb_iff. destruct z as [zs [zt zj]], l0 as [ls [lt lj]]. cbn [move_link fst snd] in *. split; [|now intros [= -> ->]].
      intros [= E1 ->]. apply f_inj in E1; [|assumption|assumption]. now subst.
  Qed.

  Lemma swappable_h1 : swappable h1 (P ++ Q).
  Proof.
    assert (HP : forall o n, In (o, n) P -> h_parent h1 o = Some (h_root h) /\ h_parent h1 n = Some (h_root h) /\ h_out h1 o <= h_out h1 n /\ In n (h_nodes h) /\ ~ In o (h_nodes h)).
    { intros o n I. apply in_P in I. destruct I as (sn & I & ->). assert (Is : In sn (map fst subs)) by (apply (in_map fst) in I; exact I).
      destruct (sub_top sn n I) as (T & L & Ou). split; [apply child_placed; now apply sub_child|]. split; [now rewrite host_parent|].
      split; [|split; [exact L|apply f_fresh; now apply sub_node]]. rewrite (host_out n L). destruct (gr_ports _ _ _ _ _ _ G sn (sub_node sn Is)) as [_ ->]. exact Ou. }
    assert (HQ : forall o n, In (o, n) Q -> h_parent h1 o = Some (h_root h) /\ h_parent h1 n = Some (h_root h) /\ h_out h1 o <= h_out h1 n /\ In o (h_nodes h) /\
                 exists sn, In (o, sn) reps /\ n = f sn /\ In sn nodes /\ ~ In sn (map fst subs)).
    { intros o n I. apply in_Q in I. destruct I as (sn & I & ->). destruct (lk_replaced _ _ _ _ K o sn I) as [T Ou]. pose proof (rep_live o sn I) as L. pose proof (rep_added o sn I) as Ad.
      pose proof (ins_node sn (added_ins sn Ad)) as Is. split; [now rewrite host_parent|]. split; [apply child_placed; now apply added_child|].
      split; [rewrite (host_out o L); destruct (gr_ports _ _ _ _ _ _ G sn Is) as [_ ->]; exact Ou|]. split; [exact L|]. exists sn. repeat split; auto. exact (ins_not_sub sn (added_ins sn Ad)). }
    constructor.
    - exact W1.
    - rewrite map_app. assert (D1 : NoDup (map fst P)).
      { unfold P. rewrite map_map. cbn [fst]. rewrite <- (map_map fst f). assert (Du : NoDup (map fst use)) by (apply (Permutation_NoDup (Permutation_sym (Permutation_map fst Pu))), substitutes_nodup, ND).
        assert (Inc : incl (map fst use) nodes) by (intros x I; apply sub_node; now apply (Permutation_in _ (Permutation_map fst Pu))).
        clear -Du Inc G. induction (map fst use) as [|x l IH]; [constructor|]. inversion Du as [|? ? Nx Dl]; subst. cbn [map]. constructor.
        - intros I. apply in_map_iff in I. destruct I as (y & E & I). apply (gr_inj _ _ _ _ _ _ G) in E; [subst; contradiction|apply Inc; now right|apply Inc; now left].
        - apply IH; [exact Dl|]. intros y I. apply Inc. now right. }
      assert (D2 : NoDup (map fst Q)).
      { unfold Q. rewrite map_map. cbn [fst]. apply (Permutation_NoDup (Permutation_sym (Permutation_map fst Pr))). exact (ac_once _ _ _ A). }
      assert (Dj : forall x, In x (map fst P) -> ~ In x (map fst Q)).
      { intros x I J. apply keys_P in I. destruct I as (sn & I & ->). apply keys_Q, rep_key_live in J. exact (f_fresh sn (sub_node sn I) J). }
      clear -D1 D2 Dj. induction (map fst P) as [|x l IH]; [exact D2|]. inversion D1 as [|? ? Nx Dl]; subst. cbn [app]. constructor.
      + rewrite in_app_iff. intros [I|I]; [contradiction|]. exact (Dj x (or_introl eq_refl) I).
      + apply IH; [exact Dl|]. intros y I. apply Dj. now right.
    - intros o n I. rewrite (gr_root _ _ _ _ _ _ G). apply in_app_iff in I. destruct I as [I|I]; [now apply (HP o n)|now apply (HQ o n)].
    - intros o n I. rewrite (gr_root _ _ _ _ _ _ G). apply in_app_iff in I. destruct I as [I|I]; [now apply (HP o n)|now apply (HQ o n)].
    - intros o n I. apply in_app_iff in I. destruct I as [I|I]; [now apply (HP o n)|now apply (HQ o n)].
    - apply alive_split.
      + intros o n I J. apply HP in I. destruct I as (_ & _ & _ & I & _). apply keys_P in J. destruct J as (sn & J & ->). exact (f_fresh sn (sub_node sn J) I).
      + intros o n I J. apply HQ in I. destruct I as (_ & _ & _ & _ & sn & _ & -> & Is & Ns). rewrite map_app, in_app_iff in J. destruct J as [J|J].
        * apply keys_P in J. destruct J as (sn' & J & E). apply f_inj in E; [subst; contradiction|exact Is|now apply sub_node].
        * apply keys_Q, rep_key_live in J. exact (f_fresh sn Is J).
    - intros o n I U. rewrite (gr_entry _ _ _ _ _ _ G) in U. destruct (host_up _ _ U (wf_entry h W)) as [Lo U']. apply in_app_iff in I. destruct I as [I|I].
      + apply HP in I. tauto.
      + apply (lk_entry _ _ _ _ K). exists o. split; [|exact U']. apply keys_Q. apply (in_map fst) in I. exact I.
    - exact links_sole.
  Qed.

  Lemma rho_host : forall s, In s (h_nodes h) -> rho_of (P ++ Q) s = match lookup reps s with Some sn => f sn | None => s end.
  Proof.
    intros s I. rewrite rho_app. rewrite (rho_other P).
    2:{ intros J. apply keys_P in J. destruct J as (sn & J & ->). exact (f_fresh sn (sub_node sn J) I). }
    rewrite rho_lookup.
    - unfold Q. rewrite lookup_map_snd. rewrite (lookup_perm _ rep reps); [now destruct (lookup reps s)| |exact Pr].
      apply (Permutation_NoDup (Permutation_sym (Permutation_map fst Pr))). exact (ac_once _ _ _ A).
    - intros o n J X. apply in_Q in J. destruct J as (sn & J & ->). apply keys_Q, rep_key_live in X. exact (f_fresh sn (ins_node sn (added_ins sn (rep_added o sn J))) X).
  Qed.
  Lemma rho_copy : forall s, In s nodes -> rho_of (P ++ Q) (f s) = match lookup subs s with
    | Some tn => match lookup reps tn with Some sn => f sn | None => tn end | None => f s end.
  Proof.
    intros s I. assert (Du : NoDup (map fst use)) by (apply (Permutation_NoDup (Permutation_sym (Permutation_map fst Pu))), substitutes_nodup, ND).
    assert (E : rho_of P (f s) = match lookup subs s with Some tn => tn | None => f s end).
    { rewrite rho_lookup.
      - unfold P. rewrite lookup_map_fst.
        + rewrite (lookup_perm _ use subs Du Pu). now destruct (lookup subs s).
        + intros k J E. apply f_inj in E; auto. apply sub_node. now apply (Permutation_in _ (Permutation_map fst Pu)).
      - intros o n J X. apply in_P in J. destruct J as (sn & J & ->). apply keys_P in X. destruct X as (sn' & X & ->). destruct (sub_top sn _ J) as (_ & L & _). exact (f_fresh sn' (sub_node sn' X) L). }
    rewrite rho_app, E. destruct (lookup subs s) as [tn|] eqn:L.
    - apply lookup_In in L. destruct (sub_top s tn L) as (_ & Lt & _). rewrite <- (rho_host tn Lt). rewrite rho_app. f_equal. symmetry. apply rho_other.
      intros J. apply keys_P in J. destruct J as (sn & J & ->). exact (f_fresh sn (sub_node sn J) Lt).
    - apply rho_other. intros J. apply keys_Q, rep_key_live in J. exact (f_fresh s I J).
  Qed.

  Lemma merge_done : exists h' m', link_by_node o_default h1 (mkTransfers use rep) m = Some (h', m') /\ merged h other parent children f m' h' /\
    forall x, ins x -> h_meta h' (f x) = h_meta h1 (f x).
  Proof.
    pose proof swappable_h1 as Sb.
    destruct (swap_all_spec o_default h1 (P ++ Q) Sb (P ++ Q) [] h1 []) as (h' & R & E & Sw & HR); [reflexivity|exact (swapped_start h1 W1)|intros x; split; [intros []|intros (o & [] & _)]|].
    assert (Keyu : forall x, In x (map fst use) <-> In x (map fst subs)).
    { intros x. split; intros I; [now apply (Permutation_in _ (Permutation_map fst Pu))|now apply (Permutation_in _ (Permutation_sym (Permutation_map fst Pu)))]. }
    destruct (link_by_node_swaps o_default f (mkTransfers use rep) h1 m) as (m' & Hm' & E').
    { cbn [t_use]. apply (Permutation_NoDup (Permutation_sym (Permutation_map fst Pu))), substitutes_nodup, ND. }
    { cbn [t_use]. intros x I. apply Hm. split; [apply sub_node; now apply Keyu|reflexivity]. }
    { cbn [t_use t_rep]. intros x I. apply (Permutation_in _ (Permutation_map snd Pr)) in I. apply in_map_iff in I. destruct I as ([r sn] & <- & I). cbn [snd].
      pose proof (rep_added r sn I) as Ad. split; [apply Hm; split; [now apply ins_node, added_ins|reflexivity]|]. rewrite Keyu. exact (ins_not_sub sn (added_ins sn Ad)). }
    cbn [t_use t_rep] in Hm', E'. fold P Q in E'. rewrite E in E'.
    exists h', m'. split; [exact E'|].
    (* who is gone *)
    assert (Rh : forall y, In y (h_nodes h) -> (In y R <-> old y)).
    { intros y I. rewrite HR, map_app. split.
      - intros (o & Io & U). destruct (host_up y o U I) as [Lo U']. apply in_app_iff in Io. destruct Io as [Io|Io].
        + apply keys_P in Io. destruct Io as (sn & Is & ->). exfalso. exact (f_fresh sn (sub_node sn Is) Lo).
        + exists o. split; [now apply keys_Q|exact U'].
      - intros (r & Ir & U). exists r. split; [apply in_app_iff; right; now apply keys_Q|]. now apply host_up_iff. }
    assert (Rc : forall x, In x nodes -> (In (f x) R <-> In x (map fst subs))).
    { intros x I. rewrite HR, map_app. split.
      - intros (o & Io & U). apply in_app_iff in Io. destruct Io as [Io|Io].
        + apply keys_P in Io. destruct Io as (sn & Is & ->). rewrite (copy_up_sub x sn I Is U). exact Is.
        + apply keys_Q in Io. exfalso. destruct (copy_up_host x o I (rep_key_live o Io) U) as (r & p & J & U'). apply in_roots in J. destruct J as [[Ep _]|[-> _]].
          * apply (proj2 (lk_parent _ _ _ _ K p Ep)). exists o. auto.
          * apply root_stays. exists o. auto.
      - intros Is. exists (f x). split; [apply in_app_iff; left; apply keys_P; exists x; auto|constructor]. }
    assert (Rins : forall x, ins x -> ~ In (f x) R).
    { intros x I J. apply Rc in J; [|now apply ins_node]. exact (ins_not_sub x I J). }
    set (gn := fun y => memN y R && memN y (h_nodes h)). set (is := fun x => memN x nodes && negb (memN x (map fst subs))).
    assert (Hgn : forall y, gn y = true <-> old y).
    { intros y. unfold gn. rewrite andb_true_iff, !memN_iff. split; [intros [X Y]; now apply Rh|]. intros X. pose proof (gone_live y X) as Y. split; [now apply Rh|exact Y]. }
    assert (His : forall x, is x = true <-> ins x).
    { intros x. unfold is. rewrite andb_true_iff, negb_true_iff, memN_iff, memN_false, Hn. split; [tauto|]. intros I. split; [now left|exact (ins_not_sub x I)]. }
    assert (Hgm : forall y, In y (h_nodes h) -> memN y R = gn y).
    { intros y I. unfold gn. rewrite (proj2 (memN_iff _ _) I). now rewrite andb_true_r. }
    split; [|intros x I; now rewrite (sp_meta _ _ _ _ Sw)].
    constructor.
    - exact (sp_wf _ _ _ _ Sw).
    - intros x y. rewrite Hm'. destruct (memN x (map fst use)) eqn:X.
      + apply memN_iff, Keyu in X. split; [discriminate|]. intros [I _]. exfalso. exact (ins_not_sub x I X).
      + apply memN_false in X. rewrite Keyu in X. rewrite Hm, Hn. tauto.
    - intros x I. apply f_fresh. now apply ins_node.
    - intros x y I J. apply f_inj; now apply ins_node.
    - intros y. rewrite (sp_nodes _ _ _ _ Sw), filter_In, negb_true_iff, memN_false, (gr_nodes _ _ _ _ _ _ G). split.
      + intros [[I|(x & I & ->)] N_]; [left; split; [exact I|now rewrite <- (Rh y I)]|]. right. exists x. split; [|reflexivity]. rewrite (Rc x I) in N_. apply Hn in I. tauto.
      + intros [[I N_]|(x & I & ->)].
        * split; [now left|]. now rewrite (Rh y I).
        * split; [right; exists x; split; [now apply ins_node|reflexivity]|]. now apply Rins.
    - intros y I N_. assert (NR : ~ In y R) by now rewrite (Rh y I). destruct (gr_host _ _ _ _ _ _ G y I) as (G1 & G2 & G3 & G4 & G5 & G6). split.
      { unfold same_node. rewrite (sp_ops _ _ _ _ Sw y NR), (sp_meta _ _ _ _ Sw), (sp_in _ _ _ _ Sw), (sp_out _ _ _ _ Sw), (sp_parent _ _ _ _ Sw).
        apply memN_false in NR. rewrite NR. auto. }
      exists (fun c => negb (gn c)), (filter (fun x => negb (memN x (map fst subs))) (map fst (filter (fun r => N.eqb (snd r) y) roots))).
      split; [|split; [|split]].
      + rewrite (sp_kids _ _ _ _ Sw). apply memN_false in NR. rewrite NR, G6, filter_app. f_equal.
        * apply filter_in_ext. intros c Ic. apply (wf_kids h W) in Ic. apply (wf_parent_live h W) in Ic. now rewrite Hgm.
        * rewrite filter_map. f_equal. apply filter_in_ext. intros x Ix. apply in_map_iff in Ix. destruct Ix as ([r p] & <- & Ix). apply filter_In in Ix. destruct Ix as [Ix _]. cbn [fst].
          assert (In r nodes). { apply in_roots in Ix. destruct Ix as [[Ep ->]|[_ Ic]]; [apply ins_node, entry_ins; congruence|]. apply Hn. destruct (child_split r Ic); [left; now apply added_ins|now right]. }
          f_equal. apply eq_true_iff_eq. rewrite !memN_iff. now apply Rc.
      + intros c. rewrite negb_true_iff, <- Hgn. destruct (gn c); split; congruence.
      + apply NoDup_filter. assert (D := roots_once). clear -D. induction roots as [|[r p] l IH]; [constructor|]. cbn [map fst] in D. inversion D as [|? ? Nr Dl]; subst.
        cbn [filter snd]. destruct (N.eqb p y); [|now apply IH]. cbn [map fst]. constructor; [|now apply IH]. intros X. apply Nr. apply in_map_iff in X. destruct X as (z & E & X).
        apply filter_In in X. apply in_map_iff. exists z. tauto.
      + intros x. rewrite filter_In, negb_true_iff, memN_false, in_map_iff. split.
        * intros [([r p] & <- & X) Ns]. apply filter_In in X. destruct X as [X Ey]. cbn [fst snd] in *. apply N.eqb_eq in Ey. subst p. apply in_roots in X.
          destruct X as [X|[-> X]]; [now left|]. right. split; [reflexivity|]. destruct (child_split r X); tauto.
        * intros [[Ep ->]|[-> Ad]].
          -- split; [|apply ins_not_sub, entry_ins; congruence]. exists (h_entry other, y). split; [reflexivity|]. apply filter_In. split; [apply in_roots; now left|apply N.eqb_refl].
          -- split; [|apply ins_not_sub; now apply added_ins]. exists (x, h_root h). split; [reflexivity|]. apply filter_In. split; [apply in_roots; right; split; [reflexivity|now apply added_child]|apply N.eqb_refl].
    - intros x I. pose proof (ins_node x I) as In_. pose proof (Rins x I) as NR. destruct (gr_ports _ _ _ _ _ _ G x In_) as [G1 G2].
      rewrite (sp_ops _ _ _ _ Sw _ NR), (sp_in _ _ _ _ Sw), (sp_out _ _ _ _ Sw), (sp_kids _ _ _ _ Sw), (sp_parent _ _ _ _ Sw). apply memN_false in NR. rewrite NR.
      split; [now apply Hops|]. split; [exact G1|]. split; [exact G2|]. split; [|split].
      + rewrite (Hkids x I). rewrite filter_map. f_equal. rewrite <- (filter_in_ext _ (fun _ => true)).
        * induction (h_kids other x) as [|c l IH]; [reflexivity|]. cbn [filter]. now rewrite IH.
        * intros c Ic. apply (wf_kids other Wo) in Ic. symmetry. apply negb_true_iff, memN_false, Rins. exact (ins_kid x c I Ic).
      + intros Ad. apply child_placed. now apply added_child.
      + intros Np ->. assert (Ep : exists p, parent = Some p) by (destruct parent as [p|]; [now exists p|congruence]). destruct Ep as (p & Ep). rewrite Ep. apply (gr_root_parent _ _ _ _ _ _ G). apply in_roots. left. split; [exact Ep|reflexivity].
    - exists gn, is. split; [exact Hgn|]. split; [exact His|].
      etransitivity; [exact (sp_links _ _ _ _ Sw)|].
      transitivity (filter (clear_of R) (map (resrc (rho_of (P ++ Q))) (h_links h ++ map (move_link f) (filter (inside nodes) (h_links other))))).
      { apply filter_perm, Permutation_map. exact (gr_links _ _ _ _ _ _ G). }
      apply Permutation_refl'. rewrite map_app. etransitivity; [apply filter_app|]. apply f_equal2.
      + apply keep_map. intros [[s i] [t j]] I. destruct (host_links_live _ I) as [Ls Lt]. cbn [fst snd] in Ls, Lt.
        unfold host_link, resrc, clear_of. cbn [fst snd]. rewrite (rho_host s Ls), (Hgm t Lt). destruct (lookup reps s) as [sn|] eqn:L.
        * apply lookup_In, rep_added, added_ins, Rins, memN_false in L. rewrite L. cbn [orb]. now destruct (gn t).
        * rewrite (Hgm s Ls). now destruct (gn s), (gn t).
      + rewrite map_map. apply keep_filter_map. intros [[s i] [t j]] I. unfold new_link, move_link, resrc, clear_of, inside. cbn [fst snd].
        unfold is. destruct (memN t nodes) eqn:Nt; cbn [andb]; [|now rewrite andb_false_r]. rewrite andb_true_r. pose proof Nt as Nt'. apply memN_iff in Nt'.
        assert (Et : memN (f t) R = memN t (map fst subs)) by (apply eq_true_iff_eq; rewrite !memN_iff; now apply Rc). rewrite Et.
        destruct (lookup subs s) as [tn|] eqn:L.
        * assert (Is : In s (map fst subs)) by (apply lookup_In in L; apply (in_map fst) in L; exact L).
          pose proof (sub_node s Is) as Ns. rewrite (proj2 (memN_iff _ _) Ns). cbn [andb]. rewrite (rho_copy s Ns), L. apply lookup_In in L. destruct (sub_top s tn L) as (T & Lv & _).
          destruct (lookup reps tn) as [sn|] eqn:L2.
          -- apply lookup_In, rep_added, added_ins, Rins, memN_false in L2. rewrite L2. cbn [orb]. now destruct (memN t (map fst subs)).
          -- apply lookup_None in L2. assert (X : ~ In tn R) by (rewrite (Rh tn Lv); intros X; apply L2; now apply gone_top). apply memN_false in X. rewrite X. cbn [orb]. now destruct (memN t (map fst subs)).
        * destruct (memN s nodes) eqn:Ns; cbn [andb]; [|now destruct (memN t (map fst subs))]. apply memN_iff in Ns. rewrite (rho_copy s Ns), L.
          assert (Es : memN (f s) R = memN s (map fst subs)) by (apply eq_true_iff_eq; rewrite !memN_iff; now apply Rc). rewrite Es.
          apply lookup_None, memN_false in L. rewrite L. cbn [orb negb]. now destruct (memN t (map fst subs)).
    - rewrite (sp_root _ _ _ _ Sw). apply (gr_root _ _ _ _ _ _ G).
    - rewrite (sp_entry _ _ _ _ Sw). apply (gr_entry _ _ _ _ _ _ G).
  Qed.
End Merge.
