(** Proofs about the copy of the nodes below a node. *)
From Coq Require Import List Bool NArith Arith Lia.
From Verif Require Import TypesModel GraphModel GraphSpec GraphProofs GraphRemove GraphBfs OpModel DeadModel InlineModel InsertModel InsertSpec InsertProofs InsertTree InsertForest ValidSpec IncallModel IncallSpec.
Import ListNotations.

Section Copy.
  Context {M : Type}.
  Notation hugr := (hugr op M).
  Variable env : N -> N -> option typedef.
  Variable h : hugr.
  Variables f c : N.
  Variable ids : list N.
  Hypothesis Wh : wf h.
  Hypothesis Hf : In f (h_nodes h).
  Hypothesis Hc : In c (h_nodes h).
  Hypothesis Hcf : ~ up (h_parent h) c f.
  Hypothesis Hids : NoDup ids.
  Hypothesis Hfresh : forall y, In y ids -> ~ In y (h_nodes h).
  Hypothesis Hlen : length (h_nodes h) <= length ids.

  Let D := tl (descendants h f).
  Let m := combine D ids.
  Let phi := image_of m.
  Let h1 := copy_in_parent h m.

  Lemma desc_head : descendants h f = f :: D.
  Proof.
    unfold D, descendants. destruct (h_nodes h) as [|z zs] eqn:Z; [destruct Hf|]. reflexivity.
  Qed.
  Lemma D_iff x : In x D <-> inner h f x.
  Proof.
    destruct (descendants_spec h Wh f Hf) as (_ & Nd & I). rewrite desc_head in Nd, I. inversion Nd as [|? ? Nf Nd']; subst. unfold inner. rewrite <- I. cbn [In]. split.
    - intros Ix. split; [right; exact Ix|]. intros ->. contradiction.
    - intros [[E|Ix] Ne]; [congruence|exact Ix].
  Qed.
  Lemma D_nodup : NoDup D.
  Proof. destruct (descendants_spec h Wh f Hf) as (_ & Nd & _). rewrite desc_head in Nd. inversion Nd; assumption. Qed.
  Lemma D_live x : In x D -> In x (h_nodes h).
  Proof.
    intros Ix. apply D_iff in Ix. destruct Ix as (U & Ne). inversion U as [|? p ? P _]; subst; [contradiction|]. exact (proj1 (wf_parent_live h Wh x p P)).
  Qed.
  Lemma D_len : length D <= length ids.
  Proof. etransitivity; [|exact Hlen]. apply NoDup_incl_length; [exact D_nodup|]. intros x. apply D_live. Qed.
  Lemma keys_m : map fst m = D.
  Proof. apply combine_fst. exact D_len. Qed.
  Lemma nodup_keys : NoDup (map fst m).
  Proof. rewrite keys_m. exact D_nodup. Qed.
  Lemma nodup_vals : NoDup (map snd m).
  Proof. apply combine_snd_nodup. exact Hids. Qed.
  Lemma phi_lookup x : In x D -> lookup m x = Some (phi x).
  Proof. intros Ix. rewrite <- keys_m in Ix. destruct (lookup_ex _ m x Ix) as (v & E). unfold phi, image_of. now rewrite E. Qed.
  Lemma phi_other x : ~ In x D -> phi x = x.
  Proof.
    intros Nx. unfold phi, image_of. destruct (lookup m x) as [v|] eqn:E; [|reflexivity]. exfalso. apply Nx. rewrite <- keys_m. apply lookup_In in E. apply in_map_iff. exists (x, v). auto.
  Qed.
  Lemma phi_in x : In x D -> In (x, phi x) m.
  Proof. intros Ix. apply lookup_In. exact (phi_lookup x Ix). Qed.
  Lemma phi_fresh x : In x D -> ~ In (phi x) (h_nodes h).
  Proof. intros Ix. apply Hfresh. apply (combine_snd _ _ D ids). apply in_map_iff. exists (x, phi x). split; [reflexivity|exact (phi_in x Ix)]. Qed.
  Lemma phi_inj x y : In x D -> In y D -> phi x = phi y -> x = y.
  Proof. intros Ix Iy E. apply phi_lookup in Ix, Iy. rewrite <- E in Iy. exact (lookup_inj m nodup_vals _ _ _ Ix Iy). Qed.
  Lemma swap_keys : map fst (map (fun e : N * N => (snd e, fst e)) m) = map snd m.
  Proof. rewrite map_map. reflexivity. Qed.
  Lemma orig_new x : In x D -> original m (phi x) = x.
  Proof.
    intros Ix. unfold original. rewrite (lookup_nodup _ _ (phi x) x); [reflexivity|rewrite swap_keys; exact nodup_vals|]. apply in_map_iff. exists (x, phi x). split; [reflexivity|exact (phi_in x Ix)].
  Qed.
  Lemma orig_old y : In y (h_nodes h) -> original m y = y.
  Proof.
    intros Iy. unfold original. destruct (lookup (map (fun e : N * N => (snd e, fst e)) m) y) as [v|] eqn:E; [|reflexivity]. exfalso. apply lookup_In in E. apply in_map_iff in E. destruct E as ([a b] & E & I). injection E as -> ->.
    apply (Hfresh y); [|exact Iy]. apply (combine_snd _ _ D ids). apply in_map_iff. exists (v, y). auto.
  Qed.
  Lemma vals_phi : map snd m = map phi D.
  Proof.
    rewrite <- keys_m. rewrite map_map. apply map_ext_in. intros [x v] I. cbn [fst snd]. unfold phi, image_of. now rewrite (lookup_nodup _ m x v nodup_keys I).
  Qed.
  Lemma f_notin : ~ In f D.
  Proof. intros I. apply D_iff in I. destruct I as [_ I]. congruence. Qed.
  Lemma c_notin : ~ In c D.
  Proof. intros I. apply D_iff in I. destruct I as [I _]. contradiction. Qed.
  Lemma kid_D x k : (x = f \/ In x D) -> In k (h_kids h x) -> In k D.
  Proof.
    intros Hx Hk. apply (wf_kids h Wh) in Hk. apply D_iff. assert (U : up (h_parent h) x f) by (destruct Hx as [->|Hx]; [constructor|apply D_iff in Hx; apply Hx]).
    split; [eapply up_next; eassumption|]. intros ->. exact (no_cycle h Wh f x Hk U).
  Qed.
  Lemma parent_D x : In x D -> exists p, h_parent h x = Some p /\ (p = f \/ In p D).
  Proof.
    intros Ix. apply D_iff in Ix. destruct Ix as (U & Ne). inversion U as [|? p ? P U']; subst; [contradiction|]. exists p. split; [exact P|].
    destruct (N.eq_dec p f) as [->|Np]; [left; reflexivity|right]. apply D_iff. split; assumption.
  Qed.

  (** The new part of the hierarchy. *)
  Let top := map (fun k => (phi k, c)) (h_kids h f).
  Let rest (l : list N) := flat_map (fun x => map (fun k => (phi k, phi x)) (h_kids h x)) l.
  Let edges := top ++ rest D.
  Let T (y : N) : option N := match lookup edges y with Some p => Some p | None => h_parent h y end.

  Lemma nodup_app {A} (a b : list A) : NoDup a -> NoDup b -> (forall x, In x a -> ~ In x b) -> NoDup (a ++ b).
  Proof.
    induction a as [|x a IH]; intros Na Nb X; [exact Nb|]. inversion Na; subst. cbn [app]. constructor.
    - rewrite in_app_iff. intros [I|I]; [contradiction|]. exact (X x (or_introl eq_refl) I).
    - apply IH; auto. intros z Z. apply X. now right.
  Qed.
  Lemma nodup_kids : forall l, NoDup l -> NoDup (flat_map (h_kids h) l).
  Proof.
    induction l as [|x l IH]; intros Nd; [constructor|]. inversion Nd; subst. cbn [flat_map]. apply nodup_app; [apply (wf_kids_once h Wh)|auto|].
    intros k I J. apply in_flat_map in J. destruct J as (y & Iy & J). apply (wf_kids h Wh) in I, J. congruence.
  Qed.
  Lemma edges_keys : map fst edges = map phi (flat_map (h_kids h) (f :: D)).
  Proof.
    unfold edges, top, rest. rewrite map_app, map_map. cbn [flat_map fst]. rewrite map_app. f_equal. assert (G : forall l, map fst (flat_map (fun x => map (fun k => (phi k, phi x)) (h_kids h x)) l) = map phi (flat_map (h_kids h) l)); [|exact (G D)]. induction l as [|x l IH]; [reflexivity|]. cbn [flat_map]. rewrite !map_app, map_map. cbn [fst]. now rewrite IH.
  Qed.
  Lemma edges_nodup : NoDup (map fst edges).
  Proof.
    rewrite edges_keys. assert (Nd : NoDup (flat_map (h_kids h) (f :: D))) by (apply nodup_kids; constructor; [exact f_notin|exact D_nodup]).
    assert (Inc : incl (flat_map (h_kids h) (f :: D)) D).
    { intros k I. apply in_flat_map in I. destruct I as (x & Ix & I). apply (kid_D x); [|exact I]. destruct Ix as [<-|Ix]; auto. }
    revert Nd Inc. induction (flat_map (h_kids h) (f :: D)) as [|x l IH]; intros Nd Inc; [constructor|]. inversion Nd as [|? ? Nx Nl]; subst. cbn [map]. constructor.
    - intros X. apply in_map_iff in X. destruct X as (y & E & Y). apply phi_inj in E; [subst; contradiction|apply Inc; now right|apply Inc; now left].
    - apply IH; [exact Nl|]. intros y Y. apply Inc. now right.
  Qed.
  Lemma edges_in y p : In (y, p) edges <-> exists k q, In k D /\ y = phi k /\ h_parent h k = Some q /\ p = (if N.eqb q f then c else phi q).
  Proof.
    unfold edges, top, rest. rewrite in_app_iff. split.
    - intros [I|I].
      + apply in_map_iff in I. destruct I as (k & E & I). injection E as <- <-. exists k, f. split; [apply (kid_D f); auto|]. split; [reflexivity|]. apply (wf_kids h Wh) in I. rewrite N.eqb_refl. auto.
      + apply in_flat_map in I. destruct I as (x & Ix & I). apply in_map_iff in I. destruct I as (k & E & I). injection E as <- <-. exists k, x. split; [apply (kid_D x); auto|]. split; [reflexivity|].
        apply (wf_kids h Wh) in I. split; [exact I|]. destruct (N.eqb_spec x f) as [->|]; [exfalso; exact (f_notin Ix)|reflexivity].
    - intros (k & q & Ik & -> & P & ->). destruct (parent_D k Ik) as (q' & P' & Hq). assert (q' = q) by congruence. subst q'. apply (wf_kids h Wh) in P. destruct (N.eqb_spec q f) as [->|Nq].
      + left. apply in_map_iff. exists k. auto.
      + right. destruct Hq as [Hq|Hq]; [contradiction|]. apply in_flat_map. exists q. split; [exact Hq|]. apply in_map_iff. exists k. auto.
  Qed.
  Lemma edges_fresh y p : In (y, p) edges -> ~ In y (h_nodes h).
  Proof. intros I. apply edges_in in I. destruct I as (k & q & Ik & -> & _). exact (phi_fresh k Ik). Qed.
  Lemma T_old y : In y (h_nodes h) -> T y = h_parent h y.
  Proof. intros I. unfold T. destruct (lookup edges y) as [p|] eqn:E; [|reflexivity]. exfalso. apply lookup_In in E. exact (edges_fresh _ _ E I). Qed.
  Lemma T_new k q : In k D -> h_parent h k = Some q -> T (phi k) = Some (if N.eqb q f then c else phi q).
  Proof. intros Ik P. unfold T. rewrite (lookup_nodup _ edges (phi k) (if N.eqb q f then c else phi q) edges_nodup); [reflexivity|]. apply edges_in. exists k, q. auto. Qed.
  Lemma T_ext y q : h_parent h y = Some q -> T y = Some q.
  Proof. intros P. rewrite T_old; [exact P|]. apply (wf_parent_live h Wh y q P). Qed.
  Lemma T_reach y : In y (h_nodes h) \/ (exists x, In x D /\ y = phi x) -> up T y (h_root h).
  Proof.
    assert (Old : forall y, In y (h_nodes h) -> up T y (h_root h)) by (intros z Iz; apply (up_mono (h_parent h)); [exact T_ext|exact (wf_reach h Wh z Iz)]).
    intros [I|(x & Ix & ->)]; [exact (Old y I)|]. pose proof Ix as Ix'. apply D_iff in Ix'. destruct Ix' as (U & _).
    assert (G : forall x b, up (h_parent h) x b -> b = f -> In x D -> up T (phi x) (h_root h)); [|exact (G x f U eq_refl Ix)].
    clear x Ix U. intros x b U Eb. induction U as [x|x p b P U IH]; intros Ix; [exfalso; subst x; exact (f_notin Ix)|].
    eapply up_next; [exact (T_new x p Ix P)|]. destruct (parent_D x Ix) as (p' & P' & Hp). assert (p' = p) by congruence. subst p'. destruct (N.eqb_spec p f) as [->|Np]; [exact (Old c Hc)|].
    destruct Hp as [Hp|Hp]; [contradiction|]. exact (IH Eb Hp).
  Qed.

  Lemma h1_nodes y : In y (h_nodes h1) <-> In y (h_nodes h) \/ exists x, In x D /\ y = phi x.
  Proof.
    unfold h1, copy_in_parent. cbn [h_nodes set_links set_ports set_nodes]. rewrite in_app_iff, vals_phi, in_map_iff. split; intros [I|I]; auto; destruct I as (x & A & B); [right|left]; exists x; auto.
  Qed.
  Lemma h1_parent y : h_parent h1 y = h_parent h y.
  Proof. reflexivity. Qed.
  Lemma h1_kids y : h_kids h1 y = h_kids h y.
  Proof. reflexivity. Qed.

  (** Placing the copies of some children. *)
  Lemma place_some : forall l pl g x p tail, attached h1 pl g -> edges = pl ++ map (fun k => (phi k, p)) l ++ tail -> (forall k, In k l -> In k (h_kids h x)) -> (x = f \/ In x D) -> In p (h_nodes h1) ->
    exists g', each (fun g k => match lookup m k with Some k' => set_parent g k' p | None => None end) l g = Some g' /\ attached h1 (pl ++ map (fun k => (phi k, p)) l) g'.
  Proof.
    induction l as [|k l IH]; intros pl g x p tail A E Hl Hx Hp; cbn [each map].
    { exists g. split; [reflexivity|]. rewrite app_nil_r. exact A. }
    assert (Ik : In k D) by (apply (kid_D x); [exact Hx|apply Hl; left; reflexivity]). rewrite (phi_lookup k Ik).
    assert (Ie : In (phi k, p) edges) by (rewrite E; apply in_or_app; right; left; reflexivity).
    assert (Tk : T (phi k) = Some p) by (unfold T; rewrite (lookup_nodup _ edges (phi k) p edges_nodup Ie); reflexivity).
    destruct (attach_step h1 g pl (phi k) p T (h_root h) A) as (g1 & E1 & A1).
    - apply h1_nodes. right. exists k. auto.
    - exact Hp.
    - destruct (lookup pl (phi k)) as [q|] eqn:L; [|reflexivity]. exfalso. apply lookup_In in L. pose proof edges_nodup as Nd. rewrite E in Nd. rewrite !map_app in Nd. cbn [map fst] in Nd. apply NoDup_remove_2 in Nd.
      apply Nd. apply in_or_app. left. apply in_map_iff. exists (phi k, q). auto.
    - rewrite h1_parent. apply (wf_unused h Wh). exact (phi_fresh k Ik).
    - rewrite T_old by exact (wf_root h Wh). exact (wf_top h Wh).
    - apply T_reach. right. exists k. auto.
    - exact Tk.
    - intros y q. destruct A as (par & kids & -> & Hpar & _). cbn [set_tree h_parent]. rewrite Hpar. destruct (lookup pl y) as [v|] eqn:X.
      + intros Q. unfold T. rewrite E, lookup_app, X. exact Q.
      + rewrite h1_parent. apply T_ext.
    - rewrite E1. destruct (IH (pl ++ [(phi k, p)]) g1 x p tail A1) as (g2 & E2 & A2); [rewrite <- app_assoc; exact E|intros k' Ik'; apply Hl; right; exact Ik'|exact Hx|exact Hp|].
      exists g2. split; [exact E2|]. rewrite <- app_assoc in A2. exact A2.
  Qed.
  (** Old nodes other than [c] keep their children meanwhile. *)
  Lemma attached_kids pl tail g x : attached h1 pl g -> edges = pl ++ tail -> In x (h_nodes h) -> x <> c -> h_kids g x = h_kids h x.
  Proof.
    intros (par & kids & -> & _ & Hk) E Ix Nx. cbn [set_tree h_kids]. rewrite Hk, h1_kids. assert (F : filter (fun e => N.eqb (snd e) x) pl = []); [|rewrite F; apply app_nil_r].
    assert (G : forall e, In e pl -> N.eqb (snd e) x = false).
    { intros [y p] I. cbn [snd]. apply N.eqb_neq. intros ->. assert (J : In (y, x) edges) by (rewrite E; apply in_or_app; left; exact I). apply edges_in in J. destruct J as (k & q & Ik & _ & P & J).
      destruct (N.eqb_spec q f); [contradiction|]. destruct (parent_D k Ik) as (q' & P' & Hq). assert (q' = q) by congruence. subst q'. destruct Hq as [Hq|Hq]; [contradiction|]. apply (phi_fresh q Hq). rewrite <- J. exact Ix. }
    clear - G. induction pl as [|e pl IH]; [reflexivity|]. cbn [filter]. rewrite (G e (or_introl eq_refl)). apply IH. intros e' I. apply G. right. exact I.
  Qed.
  Lemma place_all : forall l pl g, attached h1 pl g -> edges = pl ++ rest l -> incl l D ->
    exists g', each (fun g e => place_kids m g (fst e) (snd e)) (map (fun x => (x, phi x)) l) g = Some g' /\ attached h1 (pl ++ rest l) g'.
  Proof.
    induction l as [|x l IH]; intros pl g A E Hl; cbn [each map].
    { exists g. split; [reflexivity|]. cbn. rewrite app_nil_r. exact A. }
    cbn [fst snd]. unfold place_kids at 1. assert (Ix : In x D) by (apply Hl; left; reflexivity). rewrite (attached_kids pl (rest (x :: l)) g x A E (D_live x Ix)); [|intros ->; exact (c_notin Ix)].
    destruct (place_some (h_kids h x) pl g x (phi x) (rest l) A) as (g1 & E1 & A1).
    - rewrite E. reflexivity.
    - auto.
    - right. exact Ix.
    - apply h1_nodes. right. exists x. auto.
    - rewrite E1. destruct (IH _ g1 A1) as (g2 & E2 & A2); [rewrite <- app_assoc; exact E|intros y Iy; apply Hl; right; exact Iy|]. exists g2. split; [exact E2|]. rewrite <- app_assoc in A2. exact A2.
  Qed.
  Lemma m_pairs : m = map (fun x => (x, phi x)) D.
  Proof.
    transitivity (map (fun x => (x, phi x)) (map fst m)); [|rewrite keys_m; reflexivity]. rewrite map_map. rewrite <- (map_id m) at 1. apply map_ext_in. intros [x v] I. cbn [fst].
    unfold phi, image_of. now rewrite (lookup_nodup _ m x v nodup_keys I).
  Qed.

  (** Operations and metadata. *)
  Lemma copy_ops_spec : forall l (g : hugr), (forall x, In x l -> In x D) -> (forall x, In x D -> h_ops g x = h_ops h x /\ h_meta g x = h_meta h x) ->
    exists g', copy_ops env None (map (fun x => (x, phi x)) l) g = Some g' /\ (exists ops meta, g' = set_meta (set_ops g ops) meta /\
      (forall x, In x l -> ops (phi x) = h_ops h x /\ meta (phi x) = h_meta h x) /\ (forall y, (forall x, In x l -> y <> phi x) -> ops y = h_ops g y /\ meta y = h_meta g y)).
  Proof.
    induction l as [|x l IH]; intros g Hl Hg; cbn [copy_ops map].
    { exists g. split; [reflexivity|]. exists (h_ops g), (h_meta g). split; [destruct g; reflexivity|]. split; [intros x []|auto]. }
    assert (Ix : In x D) by (apply Hl; left; reflexivity). destruct (IH (set_meta (set_ops g (upd (h_ops g) (phi x) (h_ops g x))) (upd (h_meta g) (phi x) (h_meta g x)))) as (g' & E & ops & meta & -> & Ha & Hb).
    - intros y Iy. apply Hl. right. exact Iy.
    - intros y Iy. cbn [set_meta set_ops h_ops h_meta]. unfold upd. destruct (N.eqb_spec y (phi x)) as [->|]; [exfalso; exact (phi_fresh x Ix (D_live _ Iy))|]. exact (Hg y Iy).
    - exists (set_meta (set_ops g ops) meta). split; [exact E|]. exists ops, meta. split; [reflexivity|]. split.
      + intros y Iy. destruct (in_dec N.eq_dec y l) as [J|J]; [exact (Ha y J)|]. destruct Iy as [<-|Iy]; [|contradiction]. destruct (Hb (phi x)) as (A & B).
        * intros z Iz Ez. apply J. rewrite (phi_inj x z Ix (Hl z (or_intror Iz)) Ez). exact Iz.
        * rewrite A, B. cbn [set_meta set_ops h_ops h_meta]. unfold upd. rewrite N.eqb_refl. exact (Hg x Ix).
      + intros y Ny. destruct (Hb y) as (A & B); [intros z Iz; apply Ny; right; exact Iz|]. rewrite A, B. cbn [set_meta set_ops h_ops h_meta]. unfold upd.
        destruct (N.eqb_spec y (phi x)) as [->|]; [exfalso; exact (Ny x (or_introl eq_refl) eq_refl)|]. auto.
  Qed.

  Lemma touch_iff l : touching (map fst m) l = true <-> inner h f (fst (fst l)) \/ inner h f (fst (snd l)).
  Proof. unfold touching. rewrite orb_true_iff, keys_m, !memN_iff, !D_iff. tauto. Qed.
  Lemma filter_map {A B} (g : A -> B) p (l : list A) : filter p (map g l) = map g (filter (fun x => p (g x)) l).
  Proof. induction l as [|x l IH]; [reflexivity|]. cbn. destruct (p (g x)); cbn; now rewrite IH. Qed.
  Lemma filter_filter {A} (p q : A -> bool) (l : list A) : filter p (filter q l) = filter (fun x => q x && p x) l.
  Proof. induction l as [|x l IH]; [reflexivity|]. cbn. destruct (q x); cbn; [destruct (p x)|]; now rewrite IH. Qed.
  Lemma links_new x i : In x D -> filter (fun l : link => ep_eqb (snd l) (phi x, i)) (h_links h1) = map (move_link phi) (in_links h (x, i)).
  Proof.
    intros Ix. unfold h1, copy_in_parent. cbn [h_links set_links]. rewrite filter_app. assert (F : filter (fun l : link => ep_eqb (snd l) (phi x, i)) (h_links h) = []).
    { assert (G : forall l, In l (h_links h) -> ep_eqb (snd l) (phi x, i) = false).
      { intros l I. destruct (ep_eqb (snd l) (phi x, i)) eqn:B; [|reflexivity]. exfalso. apply ep_eqb_iff in B. destruct (wf_links h Wh l I) as (_ & (J & _)). rewrite B in J. exact (phi_fresh x Ix J). }
      revert G. generalize (h_links h). induction l as [|l ls IH]; intros G; [reflexivity|]. cbn [filter]. rewrite (G l (or_introl eq_refl)). apply IH. intros l' I. apply G. right. exact I. }
    rewrite F. cbn [app]. rewrite filter_map, filter_filter. fold phi. f_equal. unfold in_links. apply filter_ext_in. intros [[s a] [d j]] I. unfold move_link. cbn [fst snd].
    destruct (ep_eqb (d, j) (x, i)) eqn:B.
    - apply ep_eqb_iff in B. injection B as -> ->. assert (E1 : touching (map fst m) ((s, a), (x, i)) = true) by (apply touch_iff; right; apply D_iff; exact Ix). apply andb_true_iff. split; [exact E1|]. apply ep_eqb_iff. reflexivity.
    - apply andb_false_iff. right. destruct (ep_eqb (phi d, j) (phi x, i)) eqn:B2; [|reflexivity]. exfalso. apply ep_eqb_iff in B2. injection B2 as E2 ->.
      destruct (in_dec N.eq_dec d D) as [Id|Nd].
      + apply phi_inj in E2; [|exact Id|exact Ix]. subst d. assert (X : ep_eqb (x, i) (x, i) = true) by (apply ep_eqb_iff; reflexivity). congruence.
      + rewrite (phi_other d Nd) in E2. destruct (wf_links h Wh _ I) as (_ & (J & _)). cbn [fst snd] in J. rewrite E2 in J. exact (phi_fresh x Ix J).
  Qed.

  Theorem copy_spec : exists h', copy_descendants env h f c None ids = Some (h', m) /\ copied h f c phi h' /\ wf h'.
  Proof.
    unfold copy_descendants. fold D. fold m. fold h1.
    destruct (place_some (h_kids h f) [] h1 f c (rest D) (attach_start h1) eq_refl (fun k I => I) (or_introl eq_refl)) as (g1 & E1 & A1); [apply h1_nodes; left; exact Hc|].
    unfold place_kids at 1. rewrite h1_kids, E1. cbn [app] in A1. destruct (place_all D _ g1 A1 eq_refl (incl_refl D)) as (g2 & E2 & A2). rewrite <- m_pairs in E2. rewrite E2. change (attached h1 edges g2) in A2.
    destruct A2 as (par & kids & -> & Hpar & Hk).
    destruct (copy_ops_spec D (set_tree h1 par kids)) as (g3 & E3 & ops & meta & -> & Ho & Ho').
    { auto. } { intros x Ix. split; reflexivity. }
    rewrite <- m_pairs in E3. rewrite E3. cbn [option_map]. eexists. split; [reflexivity|].
    assert (HT : forall y, par y = T y) by (intros y; rewrite Hpar, h1_parent; reflexivity).
    assert (Kf : forall p k, In k (map fst (filter (fun e => N.eqb (snd e) p) edges)) <-> lookup edges k = Some p).
    { intros p k. rewrite (lookup_iff _ edges edges_nodup). split.
      - intros I. apply in_map_iff in I. destruct I as ([a b] & E & I). apply filter_In in I. cbn [fst snd] in *. destruct I as [I Q]. apply N.eqb_eq in Q. subst. exact I.
      - intros I. apply in_map_iff. exists (k, p). split; [reflexivity|]. apply filter_In. split; [exact I|]. cbn [snd]. apply N.eqb_refl. }
    assert (Knone : forall p, (forall k, lookup edges k <> Some p) -> map fst (filter (fun e => N.eqb (snd e) p) edges) = []).
    { intros p Np. destruct (map fst (filter (fun e => N.eqb (snd e) p) edges)) as [|k l] eqn:E; [reflexivity|]. exfalso. apply (Np k). apply Kf. rewrite E. left. reflexivity. }
    assert (Kold : forall y, In y (h_nodes h) -> y <> c -> kids y = h_kids h y).
    { intros y Iy Ny. rewrite Hk, h1_kids, Knone; [apply app_nil_r|]. intros k L. apply lookup_In in L. apply edges_in in L. destruct L as (k0 & q & Ik & _ & P & E).
      destruct (N.eqb_spec q f); [congruence|]. destruct (parent_D k0 Ik) as (q' & P' & Hq). assert (q' = q) by congruence. subst q'. destruct Hq as [Hq|Hq]; [contradiction|]. apply (phi_fresh q Hq). rewrite <- E. exact Iy. }
    assert (FE : forall p l, (forall e, In e l -> N.eqb (snd e) p = true) -> filter (fun e : N * N => N.eqb (snd e) p) l = l).
    { intros p l. induction l as [|e l IH]; intros G; [reflexivity|]. cbn [filter]. rewrite (G e (or_introl eq_refl)), IH; [reflexivity|]. intros e' I. apply G. right. exact I. }
    assert (FN : forall p l, (forall e, In e l -> N.eqb (snd e) p = false) -> filter (fun e : N * N => N.eqb (snd e) p) l = []).
    { intros p l. induction l as [|e l IH]; intros G; [reflexivity|]. cbn [filter]. rewrite (G e (or_introl eq_refl)). apply IH. intros e' I. apply G. right. exact I. }
    assert (Kc : kids c = h_kids h c ++ map phi (h_kids h f)).
    { rewrite Hk, h1_kids. f_equal. unfold edges. rewrite filter_app, map_app. fold top. rewrite (FE c top), (FN c (rest D)).
      - cbn [map]. rewrite app_nil_r. unfold top. rewrite map_map. reflexivity.
      - intros [y p] I. unfold rest in I. apply in_flat_map in I. destruct I as (x & Ix & I). apply in_map_iff in I. destruct I as (k & E & _). injection E as <- <-. cbn [snd]. apply N.eqb_neq. intros E. apply (phi_fresh x Ix). rewrite E. exact Hc.
      - intros [y p] I. unfold top in I. apply in_map_iff in I. destruct I as (k & E & _). injection E as <- <-. apply N.eqb_refl. }
    assert (Knew : forall x, In x D -> kids (phi x) = map phi (h_kids h x)).
    { intros x Ix. rewrite Hk, h1_kids, (proj2 (wf_unused h Wh _ (phi_fresh x Ix))). cbn [app]. unfold edges. rewrite filter_app, map_app. fold top. rewrite (FN (phi x) top).
      - cbn [map app]. unfold rest. assert (G : forall l, NoDup l -> incl l D -> map fst (filter (fun e => N.eqb (snd e) (phi x)) (flat_map (fun x => map (fun k => (phi k, phi x)) (h_kids h x)) l)) = if in_dec N.eq_dec x l then map phi (h_kids h x) else []).
        { induction l as [|y l IH]; intros Nd Hi; [reflexivity|]. inversion Nd as [|? ? Ny Nl]; subst. assert (Hi' : incl l D) by (intros z Iz; apply Hi; right; exact Iz). cbn [flat_map]. rewrite filter_app, map_app, (IH Nl Hi').
          destruct (N.eq_dec y x) as [->|Ne].
          - rewrite FE; [|intros e I; apply in_map_iff in I; destruct I as (k & <- & _); apply N.eqb_refl]. rewrite map_map. cbn [fst]. destruct (in_dec N.eq_dec x l) as [J|J]; [contradiction|]. destruct (in_dec N.eq_dec x (x :: l)) as [_|J']; [apply app_nil_r|exfalso; apply J'; left; reflexivity].
          - rewrite FN; [|intros e I; apply in_map_iff in I; destruct I as (k & <- & _); cbn [snd]; apply N.eqb_neq; intros E; apply Ne; apply phi_inj; [apply Hi; left; reflexivity|exact Ix|exact E]].
            cbn [map app]. destruct (in_dec N.eq_dec x l) as [J|J], (in_dec N.eq_dec x (y :: l)) as [J'|J']; try reflexivity; exfalso; [apply J'; right; exact J|]. destruct J' as [J'|J']; contradiction. }
        rewrite (G D D_nodup (incl_refl D)). destruct (in_dec N.eq_dec x D); [reflexivity|contradiction].
      - intros [y p] I. unfold top in I. apply in_map_iff in I. destruct I as (k & E & _). injection E as <- <-. cbn [snd]. apply N.eqb_neq. intros E. apply (phi_fresh x Ix). rewrite <- E. exact Hc. }
    assert (Nphi : forall y, In y (h_nodes h) -> forall x, In x D -> y <> phi x) by (intros y Iy x Ix ->; exact (phi_fresh x Ix Iy)).
    split.
    - constructor; cbn [set_meta set_ops set_tree h_nodes h_in h_out h_links h_ops h_meta h_parent h_kids h_root h_entry].
      + intros x Ix. apply phi_fresh. apply D_iff. exact Ix.
      + intros x y Ix Iy. apply phi_inj; apply D_iff; assumption.
      + intros x Nx. apply phi_other. rewrite D_iff. exact Nx.
      + intros y. rewrite h1_nodes. split; (intros [I|(x & Ix & ->)]; [left; exact I|right; exists x; split; [apply D_iff; exact Ix|reflexivity]]).
      + reflexivity.
      + reflexivity.
      + intros y Iy. destruct (Ho' y (Nphi y Iy)) as (A & B). split; [exact A|]. split; [exact B|]. unfold h1, copy_in_parent. cbn [h_in h_out set_links set_ports]. rewrite (orig_old y Iy). split; [reflexivity|]. split; [reflexivity|].
        split; [rewrite HT; exact (T_old y Iy)|]. destruct (N.eqb_spec y c) as [->|Ny]; [exact Kc|]. rewrite app_nil_r. exact (Kold y Iy Ny).
      + intros x Ix. apply D_iff in Ix. destruct (Ho x Ix) as (A & B). split; [exact A|]. split; [exact B|]. unfold h1, copy_in_parent. cbn [h_in h_out set_links set_ports]. rewrite (orig_new x Ix). split; [reflexivity|]. split; [reflexivity|]. exact (Knew x Ix).
      + intros x p Ix P. apply D_iff in Ix. rewrite HT. exact (T_new x p Ix P).
      + exists (filter (touching (map fst m)) (h_links h)). split; [reflexivity|]. split.
        * intros l. rewrite filter_In, touch_iff. tauto.
        * intros x i Ix. apply D_iff in Ix. unfold in_links at 1. cbn [set_meta set_ops set_tree h_links]. exact (links_new x i Ix).
    - constructor; cbn [set_meta set_ops set_tree h_nodes h_in h_out h_links h_ops h_meta h_parent h_kids h_root h_entry].
      + unfold h1, copy_in_parent. cbn [h_nodes set_links set_ports set_nodes]. apply nodup_app; [exact nodup_vals|exact (wf_nodup h Wh)|]. rewrite vals_phi. intros y I. apply in_map_iff in I. destruct I as (x & <- & Ix). exact (phi_fresh x Ix).
      + apply h1_nodes. left. exact (wf_root h Wh).
      + apply h1_nodes. left. exact (wf_entry h Wh).
      + rewrite HT. change (h_root h1) with (h_root h). rewrite T_old by exact (wf_root h Wh). exact (wf_top h Wh).
      + intros n I Ne. rewrite HT. apply h1_nodes in I. destruct I as [I|(x & Ix & ->)].
        * destruct (wf_parent h Wh n I Ne) as (p & P & Ip). exists p. split; [exact (T_ext n p P)|]. apply h1_nodes. left. exact Ip.
        * destruct (parent_D x Ix) as (p & P & Hp). exists (if N.eqb p f then c else phi p). split; [exact (T_new x p Ix P)|]. apply h1_nodes. destruct (N.eqb_spec p f); [left; exact Hc|]. destruct Hp as [Hp|Hp]; [contradiction|]. right. exists p. auto.
      + intros p k. rewrite Hk, h1_kids, in_app_iff, HT, (wf_kids h Wh). rewrite Kf. unfold T. destruct (lookup edges k) as [v|] eqn:E.
        * split; [|auto]. intros [X|X]; [|exact X]. exfalso. apply lookup_In in E. apply (edges_fresh _ _ E). apply (wf_parent_live h Wh k p X).
        * split; [intros [X|X]; [exact X|discriminate]|auto].
      + intros p. destruct (in_dec N.eq_dec p (h_nodes h)) as [Ip|Np].
        * destruct (N.eq_dec p c) as [->|Ne]; [|rewrite (Kold p Ip Ne); apply (wf_kids_once h Wh)]. rewrite Kc. apply nodup_app; [apply (wf_kids_once h Wh)| |].
          -- assert (G : forall l, NoDup l -> incl l D -> NoDup (map phi l)); [|apply G; [apply (wf_kids_once h Wh)|intros k Ik; exact (kid_D f k (or_introl eq_refl) Ik)]].
             induction l as [|y l IH]; intros Nd Hi; [constructor|]. inversion Nd as [|? ? Ny Nl]; subst. cbn [map]. constructor; [|apply IH; [exact Nl|intros z Iz; apply Hi; right; exact Iz]].
             intros J. apply in_map_iff in J. destruct J as (z & E & Iz). apply phi_inj in E; [subst; contradiction|apply Hi; right; exact Iz|apply Hi; left; reflexivity].
          -- intros y Iy J. apply in_map_iff in J. destruct J as (k & <- & Ik). apply (wf_kids h Wh) in Iy. apply (phi_fresh k (kid_D f k (or_introl eq_refl) Ik)). apply (wf_parent_live h Wh _ _ Iy).
        * destruct (in_dec N.eq_dec p (map phi D)) as [Jp|Jp].
          -- apply in_map_iff in Jp. destruct Jp as (x & <- & Ix). rewrite (Knew x Ix). assert (G : forall l, NoDup l -> incl l D -> NoDup (map phi l)); [|apply G; [apply (wf_kids_once h Wh)|intros k Ik; exact (kid_D x k (or_intror Ix) Ik)]].
             induction l as [|y l IH]; intros Nd Hi; [constructor|]. inversion Nd as [|? ? Ny Nl]; subst. cbn [map]. constructor; [|apply IH; [exact Nl|intros z Iz; apply Hi; right; exact Iz]].
             intros J. apply in_map_iff in J. destruct J as (z & E & Iz). apply phi_inj in E; [subst; contradiction|apply Hi; right; exact Iz|apply Hi; left; reflexivity].
          -- rewrite Hk, h1_kids, (proj2 (wf_unused h Wh p Np)), Knone; [constructor|]. intros k L. apply lookup_In in L. apply edges_in in L. destruct L as (k0 & q & Ik & _ & P & E).
             destruct (N.eqb_spec q f); [subst p; exact (Np Hc)|]. destruct (parent_D k0 Ik) as (q' & P' & Hq). assert (q' = q) by congruence. subst q'. destruct Hq as [Hq|Hq]; [contradiction|]. apply Jp. rewrite E. apply in_map. exact Hq.
      + intros n Nn. rewrite h1_nodes in Nn. assert (N0 : ~ In n (h_nodes h)) by tauto. assert (L : forall p, ~ In (n, p) edges) by (intros p I; apply Nn; right; apply edges_in in I; destruct I as (k & q & Ik & -> & _); exists k; auto). split.
        * rewrite HT. unfold T. destruct (lookup edges n) as [p|] eqn:E; [exfalso; apply lookup_In in E; exact (L p E)|]. apply (wf_unused h Wh n N0).
        * rewrite Hk, h1_kids, (proj2 (wf_unused h Wh n N0)), Knone; [reflexivity|]. intros k E. apply lookup_In in E. apply edges_in in E. destruct E as (k0 & q & Ik & _ & P & E).
          destruct (N.eqb_spec q f); [subst n; exact (N0 Hc)|]. destruct (parent_D k0 Ik) as (q' & P' & Hq). assert (q' = q) by congruence. subst q'. destruct Hq as [Hq|Hq]; [contradiction|]. apply Nn. right. exists q. auto.
      + intros n I. apply (up_mono T); [intros y q; rewrite HT; auto|]. change (h_root h1) with (h_root h). apply T_reach. apply h1_nodes. exact I.
      + intros l I. unfold out_port, in_port. cbn [set_meta set_ops set_tree h_nodes h_in h_out]. unfold h1, copy_in_parent in I. cbn [h_links set_links] in I. apply in_app_iff in I. destruct I as [I|I].
        * destruct (wf_links h Wh l I) as [[A B] [A' B']]. unfold h1, copy_in_parent at 2 4. cbn [h_in h_out set_links set_ports]. rewrite (orig_old _ A), (orig_old _ A'). split; (split; [apply h1_nodes; left; assumption|assumption]).
        * apply in_map_iff in I. destruct I as (l0 & <- & I). apply filter_In in I. destruct I as [I _]. destruct (wf_links h Wh l0 I) as [[A B] [A' B']]. unfold move_link. cbn [fst snd]. fold phi.
          assert (G : forall y, In y (h_nodes h) -> In (phi y) (h_nodes h1) /\ original m (phi y) = y).
          { intros y Iy. destruct (in_dec N.eq_dec y D) as [Id|Nd]; [split; [apply h1_nodes; right; exists y; auto|exact (orig_new y Id)]|]. rewrite (phi_other y Nd). split; [apply h1_nodes; left; exact Iy|exact (orig_old y Iy)]. }
          destruct (G _ A) as (G1 & G2). destruct (G _ A') as (G3 & G4). unfold h1, copy_in_parent at 2 4. cbn [h_in h_out set_links set_ports]. rewrite G2, G4. split; split; assumption.
  Qed.
End Copy.
