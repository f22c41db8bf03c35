(** Lemmas about the removal of unreachable functions. *)
From Coq Require Import List Bool NArith Arith Lia Permutation.
From Verif Require Import TagModel TypesModel GraphModel GraphSpec GraphProofs GraphRemove GraphBfs Graphs OpModel DeadModel DeadSpec DeadProofs.
Import ListNotations.

Section Funcs.
  Context {M : Type}.
  Notation hugr := (hugr op M).

  (** ** Removing several subtrees *)
  Lemma cull_tree : forall (h0 h h' : hugr) R n R', wf h0 -> culled h0 R h -> wf h -> removed OModule h n R' [] h' ->
    (forall m, In m R' <-> up (h_parent h) m n) -> culled h0 (R' ++ R) h'.
  Proof.
    intros h0 h h' R n R' W0 C W Rm HR.
    assert (Cl : forall m p, h_parent h m = Some p -> In p R' -> In m R').
    { intros m p E I. apply HR. apply HR in I. eapply up_next; eassumption. }
    constructor.
    - rewrite (rm_nodes _ _ _ _ _ _ Rm), (cu_nodes _ _ _ C), filter_filter. apply filter_ext. intros m. rewrite memN_app, negb_orb. apply andb_comm.
    - intros m. rewrite (rm_ops _ _ _ _ _ _ Rm), memN_app, (cu_ops _ _ _ C). now destruct (memN m R').
    - rewrite (rm_meta _ _ _ _ _ _ Rm). apply (cu_meta _ _ _ C).
    - rewrite (rm_in _ _ _ _ _ _ Rm). apply (cu_in _ _ _ C).
    - rewrite (rm_out _ _ _ _ _ _ Rm). apply (cu_out _ _ _ C).
    - rewrite (rm_links _ _ _ _ _ _ Rm), (cu_links _ _ _ C), filter_filter. apply filter_ext. intros [[a i] [b j]]. cbn [fst snd].
      rewrite !memN_app. destruct (memN a R), (memN b R), (memN a R'), (memN b R'); reflexivity.
    - intros m. rewrite (rm_parent _ _ _ _ _ _ Rm), app_nil_r, memN_app. destruct (memN m R') eqn:Em; [reflexivity|]. cbn [orb].
      rewrite (cu_parent _ _ _ C). destruct (memN m R) eqn:Er; [reflexivity|]. destruct (h_parent h0 m) as [p|] eqn:Ep; [|reflexivity].
      rewrite memN_app. destruct (memN p R) eqn:Pr; [now rewrite orb_true_r|]. rewrite orb_false_r. destruct (memN p R') eqn:Pr'; [|reflexivity].
      exfalso. apply memN_false in Em. apply Em. apply (Cl m p); [|now apply memN_iff]. rewrite (cu_parent _ _ _ C), Er, Ep, Pr. reflexivity.
    - intros m. rewrite (rm_kids _ _ _ _ _ _ Rm), memN_app. destruct (memN m R') eqn:Em; [reflexivity|]. cbn [orb]. rewrite (cu_kids _ _ _ C).
      destruct (memN m R) eqn:Er; [reflexivity|]. unfold delN. rewrite filter_filter. apply filter_in_ext. intros c Ic. rewrite memN_app, negb_orb.
      destruct (memN c R) eqn:Cr; [now rewrite andb_false_r|]. cbn [negb andb]. rewrite andb_true_r. f_equal.
      assert (Pc : h_parent h c = Some m).
      { rewrite (cu_parent _ _ _ C), Cr. apply (wf_kids h0 W0) in Ic. now rewrite Ic, Er. }
      destruct (N.eqb_spec c n) as [->|Ne].
      + symmetry. apply memN_iff. apply HR. constructor.
      + symmetry. apply memN_false. intros I. apply HR in I. inversion I as [|? p ? Ep U]; subst; [congruence|]. rewrite Pc in Ep. injection Ep as <-.
        apply memN_false in Em. apply Em. now apply HR.
    - rewrite (rm_root _ _ _ _ _ _ Rm). apply (cu_root _ _ _ C).
    - rewrite (rm_entry _ _ _ _ _ _ Rm). apply (cu_entry _ _ _ C).
  Qed.

  Lemma remove_trees_spec : forall (h0 : hugr), wf h0 -> forall ns R h, culled h0 R h -> wf h -> NoDup ns ->
    (forall m, In m R -> exists k, h_parent h0 k = Some (h_root h0) /\ up (h_parent h0) m k /\ ~ In k ns) ->
    (forall n, In n ns -> h_parent h0 n = Some (h_root h0) /\ ~ up (h_parent h0) (h_entry h0) n) ->
    exists h' R', remove_trees h ns = Some h' /\ culled h0 R' h' /\ wf h' /\
      forall m, In m R' <-> In m R \/ exists n, In n ns /\ up (h_parent h0) m n.
  Proof.
    intros h0 W0. assert (Uniq : forall m a b, h_parent h0 a = Some (h_root h0) -> h_parent h0 b = Some (h_root h0) ->
       up (h_parent h0) m a -> up (h_parent h0) m b -> a = b).
    { intros m a b Pa Pb Ua. induction Ua as [a|m p a E U IH]; intros Ub.
      - inversion Ub as [|? p ? Ep Ub']; subst; [reflexivity|]. rewrite Pa in Ep. injection Ep as <-. apply (up_root h0 W0) in Ub'. subst.
        rewrite (wf_top h0 W0) in Pb. discriminate.
      - inversion Ub as [|? q ? Eq Ub']; subst; [|rewrite E in Eq; injection Eq as <-; auto]. rewrite Pb in E. injection E as <-.
        apply (up_root h0 W0) in U. subst. rewrite (wf_top h0 W0) in Pa. discriminate. }
    induction ns as [|n ns IH]; intros R h C W D HR A.
    - exists h, R. cbn. split; [reflexivity|]. split; [exact C|]. split; [exact W|]. intros m. split; [auto|]. intros [I|(n & [] & _)]; exact I.
    - cbn [remove_trees]. inversion D as [|? ? Nn D']; subst. destruct (A n (or_introl eq_refl)) as [Pn NE].
      assert (Ln : In n (h_nodes h0)) by (apply (wf_parent_live h0 W0 n _ Pn)).
      assert (NR : forall m, up (h_parent h0) m n -> ~ In m R).
      { intros m U I. destruct (HR m I) as (k & Pk & Uk & Nk). apply Nk. left. eapply Uniq; eassumption. }
      assert (Rootless : ~ In (h_root h0) R).
      { intros I. destruct (HR _ I) as (k & Pk & Uk & _). apply (up_root h0 W0) in Uk. subst. rewrite (wf_top h0 W0) in Pk. discriminate. }
      assert (Up : forall m, up (h_parent h) m n <-> up (h_parent h0) m n).
      { intros m. split.
        - apply up_mono. intros a p. rewrite (cu_parent _ _ _ C). destruct (memN a R); [discriminate|]. destruct (h_parent h0 a) as [q|]; [|discriminate].
          now destruct (memN q R).
        - intros U. assert (G : forall a b, up (h_parent h0) a b -> b = n -> up (h_parent h) a b).
          { intros a b V. induction V as [a|a p b E V IHV]; intros ->; [constructor|]. eapply up_next; [|apply IHV; reflexivity].
            rewrite (cu_parent _ _ _ C), E. assert (X1 : memN a R = false) by (apply memN_false, NR; eapply up_next; eassumption).
            assert (X2 : memN p R = false) by (apply memN_false, NR; assumption). now rewrite X1, X2. }
          now apply G. }
      destruct (remove_subtree_spec OModule h W n) as [Sp Tot].
      destruct Tot as (h1 & E1).
      { rewrite (cu_nodes _ _ _ C). apply filter_In. split; [exact Ln|]. replace (memN n R) with false; [reflexivity|]. symmetry. apply memN_false, NR. constructor. }
      { rewrite (cu_entry _ _ _ C), Up. exact NE. }
      destruct (Sp h1 E1) as (_ & R1 & Rm & HR1). rewrite E1. pose proof (remove_subtree_wf OModule h h1 n W E1) as W1.
      pose proof (cull_tree h0 h h1 R n R1 W0 C W Rm HR1) as C1.
      destruct (IH (R1 ++ R) h1 C1 W1 D') as (h' & R' & E' & C' & W' & X).
      + intros m I. apply in_app_iff in I. destruct I as [I|I].
        * exists n. split; [exact Pn|]. split; [now apply Up, HR1|exact Nn].
        * destruct (HR m I) as (k & Pk & Uk & Nk). exists k. split; [exact Pk|]. split; [exact Uk|]. intros J. apply Nk. now right.
      + intros k Ik. apply A. now right.
      + exists h', R'. split; [exact E'|]. split; [exact C'|]. split; [exact W'|]. intros m. rewrite X, in_app_iff, HR1, Up. split.
        * intros [[U|I]|(k & Ik & U)]; [right; exists n; split; [now left|exact U]|now left|right; exists k; split; [now right|exact U]].
        * intros [I|(k & [<-|Ik] & U)]; [left; now right|left; now left|right; exists k; auto].
  Qed.

  (** ** The static graph *)
  Lemma concat_some_spec : forall A (l : list (option (list A))) out, concat_some l = Some out ->
    (forall x, In x l -> x <> None) /\ (forall a, In a out <-> exists x, In (Some x) l /\ In a x).
  Proof.
    intros A. induction l as [|[x|] l IH]; intros out; cbn [concat_some].
    - intros E. injection E as <-. split; [intros x []|]. intros a. split; [intros []|intros (x & [] & _)].
    - destruct (concat_some l) as [o|]; [|discriminate]. cbn [option_map]. intros E. injection E as <-. destruct (IH o eq_refl) as [P Q]. split.
      + intros y [<-|I]; [discriminate|auto].
      + intros a. rewrite in_app_iff, Q. split.
        * intros [I|(y & Iy & I)]; [exists x; split; [now left|exact I]|exists y; split; [now right|exact I]].
        * intros (y & [E|Iy] & I); [injection E as <-; now left|right; eauto].
    - discriminate.
  Qed.

  Lemma concat_some_total : forall A (l : list (option (list A))), (forall x, In x l -> x <> None) -> exists out, concat_some l = Some out.
  Proof.
    intros A. induction l as [|[x|] l IH]; intros H; cbn [concat_some]; [eauto| |].
    - destruct IH as (o & ->); [intros y I; apply H; now right|]. cbn. eauto.
    - exfalso. now apply (H None (or_introl eq_refl)).
  Qed.

  Lemma static_source_iff : forall (h : hugr) n t, static_source h n = Some t <-> static_link h n t.
  Proof.
    intros h n t. unfold static_source, static_link. destruct (static_port (h_ops h n) Inc) as [i|].
    - destruct (hd_error (linked_outputs h n i)) as [[a j]|] eqn:E; cbn [option_map fst].
      + split; [intros X; injection X as <-; eauto|]. intros (i' & j' & Ei & Ej). injection Ei as <-. rewrite E in Ej. injection Ej as -> _. reflexivity.
      + split; [discriminate|]. intros (i' & j' & Ei & Ej). injection Ei as <-. rewrite E in Ej. discriminate.
    - split; [discriminate|]. intros (i' & j' & Ei & _). discriminate.
  Qed.

  Lemma parent_is_root : forall (h : hugr), wf h -> forall t,
    match get_parent h t with Some p => N.eqb p (h_root h) | None => false end = true <-> h_parent h t = Some (h_root h).
  Proof.
    intros h W t. unfold get_parent. destruct (contains h t && negb (N.eqb t (h_root h))) eqn:E.
    - destruct (h_parent h t) as [p|]; [rewrite N.eqb_eq|]; split; congruence.
    - split; [discriminate|]. intros P. destruct (wf_parent_live h W t _ P) as (A & _ & B). exfalso.
      apply andb_false_iff in E. destruct E as [E|E]; [apply memN_false in E; contradiction|]. apply negb_false_iff, N.eqb_eq in E. contradiction.
  Qed.

  Lemma mg_edge_spec : forall (h : hugr), wf h -> forall n l, mg_edge h n = Some l ->
    forall g, In g l <-> static_user (h_ops h n) /\ static_link h n g /\ h_parent h g = Some (h_root h).
  Proof.
    intros h W n l E g. rewrite <- static_source_iff. unfold mg_edge in E.
    assert (G : match static_source h n with
      | None => Some []
      | Some t =>
        if match get_parent h t with Some p => N.eqb p (h_root h) | None => false end then
          if memN t (mg_nodes h) then Some [t] else None
        else
          if negb (memN t (mg_nodes h)) && (match h_ops h n with OLoadConstant _ => true | _ => false end) &&
             (match h_ops h t with OConst _ _ _ => true | _ => false end)
          then Some [] else None
      end = Some l -> In g l <-> static_source h n = Some g /\ h_parent h g = Some (h_root h)).
    { clear E. destruct (static_source h n) as [t|].
      - pose proof (parent_is_root h W t) as P. destruct (match get_parent h t with Some p => N.eqb p (h_root h) | None => false end).
        + destruct (memN t (mg_nodes h)); [|discriminate]. intros E. injection E as <-. cbn [In]. split.
          * intros [<-|[]]. split; [reflexivity|now apply P].
          * intros [X _]. left. congruence.
        + destruct (_ && _); [|discriminate]. intros E. injection E as <-. split; [intros []|]. intros [X Y]. injection X as ->. apply P in Y. discriminate.
      - intros E. injection E as <-. split; [intros []|]. intros [X _]. discriminate. }
    destruct (h_ops h n) eqn:Eo; cbn [static_user]; try (injection E as <-; cbn; tauto); rewrite (G E); tauto.
  Qed.

  Lemma descendants_tl : forall (h : hugr), wf h -> forall f m, In f (h_nodes h) -> In m (tl (descendants h f)) <-> m <> f /\ up (h_parent h) m f.
  Proof.
    intros h W f m I. destruct (descendants_spec h W f I) as (B & D & X). inversion B as [|? q out B' E1 E2]; subst. rewrite <- E2 in *. cbn [tl].
    inversion D as [|? ? Nf D']; subst. rewrite <- X. cbn [In]. split; [|intros [Ne [E|J]]; [congruence|exact J]].
    intros J. split; [|now right]. intros ->. contradiction.
  Qed.

  Lemma mg_uses_spec : forall (h : hugr), wf h -> forall f us, In f (h_nodes h) -> mg_uses h f = Some us -> forall g, In g us <-> uses h f g.
  Proof.
    intros h W f us I E g. unfold mg_uses in E. destruct (concat_some_spec _ _ _ E) as [P Q]. rewrite Q. unfold uses. split.
    - intros (x & Ix & Ig). apply in_map_iff in Ix. destruct Ix as (n & En & In_). apply (descendants_tl h W f n I) in In_. exists n.
      apply (mg_edge_spec h W n x En g) in Ig. tauto.
    - intros (n & Ne & U & S & L & Pg). assert (Id : In n (tl (descendants h f))) by (apply (descendants_tl h W f n I); auto).
      pose proof (P (mg_edge h n) (in_map _ _ _ Id)) as Nn. destruct (mg_edge h n) as [x|] eqn:En; [|contradiction]. exists x. split.
      + rewrite <- En. now apply in_map.
      + apply (mg_edge_spec h W n x En g). auto.
  Qed.

  Lemma mg_table_spec : forall (h : hugr) fs t, mg_table h fs = Some t -> map fst t = fs /\ forall f, In f fs -> mg_uses h f = Some (targets t f).
  Proof.
    intros h. induction fs as [|f fs IH]; intros t; cbn [mg_table].
    - intros E. injection E as <-. split; [reflexivity|intros f []].
    - destruct (mg_uses h f) as [us|] eqn:Eu; [|discriminate]. destruct (mg_table h fs) as [t'|]; [|discriminate]. intros E. injection E as <-.
      destruct (IH t' eq_refl) as [P Q]. split; [cbn; now rewrite P|]. intros g [<-|I]; cbn [targets]; [now rewrite N.eqb_refl|].
      destruct (N.eqb_spec f g) as [->|Ne]; [exact Eu|auto].
  Qed.

  Lemma mg_table_total : forall (h : hugr) fs, (forall f, In f fs -> mg_uses h f <> None) -> exists t, mg_table h fs = Some t.
  Proof.
    intros h. induction fs as [|f fs IH]; intros H; cbn [mg_table]; [eauto|]. pose proof (H f (or_introl eq_refl)) as Hf. destruct (mg_uses h f) as [us|]; [|contradiction].
    destruct IH as (t & ->); [intros g I; apply H; now right|]. eauto.
  Qed.

  Lemma mg_nodes_spec : forall (h : hugr), wf h -> NoDup (mg_nodes h) /\
    forall n, In n (mg_nodes h) <-> (h_parent h n = Some (h_root h) /\ module_item (h_ops h n) = true) \/ (n = h_entry h /\ h_ops h n <> OModule).
  Proof.
    intros h W. unfold mg_nodes. set (items := filter _ _).
    assert (I : forall n, In n items <-> h_parent h n = Some (h_root h) /\ module_item (h_ops h n) = true).
    { intros n. unfold items. rewrite filter_In, (wf_kids h W). reflexivity. }
    assert (D : NoDup items) by (apply NoDup_filter, (wf_kids_once h W)).
    assert (Mo : is_module (h_ops h (h_entry h)) = true <-> h_ops h (h_entry h) = OModule) by (destruct (h_ops h (h_entry h)); cbn; split; congruence).
    destruct (is_module (h_ops h (h_entry h))) eqn:E1; cbn [negb andb].
    - split; [exact D|]. intros n. rewrite I. split; [auto|]. intros [X|[-> X]]; [exact X|]. exfalso. apply X. now apply Mo.
    - destruct (memN (h_entry h) items) eqn:E2; cbn [negb].
      + apply memN_iff in E2. split; [exact D|]. intros n. rewrite <- I. split; [auto|]. intros [X|[-> X]]; [exact X|exact E2].
      + apply memN_false in E2. split; [now apply nodup_snoc|]. intros n. rewrite in_app_iff, I. cbn [In]. split.
        * intros [X|[<-|[]]]; [now left|]. right. split; [reflexivity|]. intros X. apply Mo in X. discriminate.
        * intros [X|[-> X]]; auto.
  Qed.

  (** ** The search *)
  Definition open_edges (t : list (N * list N)) (seen : list N) : nat :=
    list_sum (map (fun x => length (snd x)) (filter (fun x => negb (memN (fst x) seen)) t)).

  Lemma open_step : forall t n seen, NoDup (map fst t) -> ~ In n seen -> open_edges t (n :: seen) + length (targets t n) <= open_edges t seen.
  Proof.
    intros t n seen D N_. apply memN_false in N_. unfold open_edges. induction t as [|[g us] t IH]; [cbn; lia|].
    cbn [map fst] in D. inversion D as [|? ? Ng D']; subst. cbn [filter fst targets]. rewrite memN_cons. destruct (N.eqb_spec g n) as [->|Ne].
    - rewrite N_. cbn [orb negb map snd]. unfold list_sum. cbn [fold_right].
      assert (E : filter (fun x : N * list N => negb (memN (fst x) (n :: seen))) t = filter (fun x => negb (memN (fst x) seen)) t).
      { apply filter_in_ext. intros [y ys] Iy. cbn [fst]. rewrite memN_cons. destruct (N.eqb_spec y n) as [->|_]; [|reflexivity].
        exfalso. apply Ng. change n with (fst (n, ys)). now apply in_map. }
      rewrite E. lia.
    - cbn [orb]. specialize (IH D'). destruct (memN g seen); cbn [negb]; [exact IH|]. cbn [map snd]. unfold list_sum in *. cbn [fold_right]. lia.
  Qed.

  Inductive from (next : N -> list N) (start : list N) : N -> Prop :=
  | from_start n : In n start -> from next start n
  | from_next n m : from next start n -> In m (next n) -> from next start m.

  Lemma dfs_spec : forall t start, NoDup (map fst t) -> forall fuel seen stack,
    (forall n, In n seen \/ In n stack -> from (targets t) start n) -> (forall n, In n start -> In n seen \/ In n stack) ->
    (forall n m, In n seen -> In m (targets t n) -> In m seen \/ In m stack) -> length stack + open_edges t seen <= fuel ->
    exists l, dfs fuel (targets t) seen stack = Some l /\ forall n, In n l <-> from (targets t) start n.
  Proof.
    intros t start D. induction fuel as [|fuel IH]; intros seen stack A B C F; destruct stack as [|n stack]; cbn [dfs].
    - exists seen. split; [reflexivity|]. intros n. split; [auto|]. intros X. induction X as [n I|n m X IHX I].
      + destruct (B n I) as [J|[]]; exact J.
      + destruct (C n m IHX I) as [J|[]]; exact J.
    - cbn [length] in F. lia.
    - exists seen. split; [reflexivity|]. intros n. split; [auto|]. intros X. induction X as [n I|n m X IHX I].
      + destruct (B n I) as [J|[]]; exact J.
      + destruct (C n m IHX I) as [J|[]]; exact J.
    - cbn [length] in F. destruct (memN n seen) eqn:E.
      + apply memN_iff in E. apply IH; [| | |lia].
        * intros m [I|I]; apply A; [now left|right; now right].
        * intros m I. destruct (B m I) as [J|[<-|J]]; auto.
        * intros a b I J. destruct (C a b I J) as [K|[<-|K]]; auto.
      + apply memN_false in E. apply IH.
        * intros m [[<-|I]|I]; [apply A; right; now left|apply A; now left|]. apply in_app_iff in I. destruct I as [I|I]; [|apply A; right; now right].
          eapply from_next; [apply A; right; left; reflexivity|exact I].
        * intros m I. destruct (B m I) as [J|[<-|J]]; [left; now right|left; now left|right; apply in_app_iff; now right].
        * intros a b [<-|I] J; [right; apply in_app_iff; now left|]. destruct (C a b I J) as [K|[<-|K]]; [left; now right|left; now left|right; apply in_app_iff; now right].
        * pose proof (open_step t n seen D E). rewrite app_length. lia.
  Qed.

  Lemma invalid_entry_spec : forall (h : hugr) entries,
    match invalid_entry h entries with
    | None => forall n, In n entries -> In n (h_nodes h) /\ exists a f b, h_ops h n = OFuncDefn a f b
    | Some (DfInvalid n) => In n entries /\ In n (h_nodes h) /\ ~ exists a f b, h_ops h n = OFuncDefn a f b
    | Some DfPanic => exists n, In n entries /\ ~ In n (h_nodes h)
    | Some (DfOk _) => False
    end.
  Proof.
    intros h. induction entries as [|n entries IH]; [intros n []|]. cbn [invalid_entry]. unfold get_optype. destruct (contains h n) eqn:C.
    - apply memN_iff in C. destruct (h_ops h n) eqn:E; try (split; [now left|]; split; [exact C|]; intros (? & ? & ? & ?); congruence).
      destruct (invalid_entry h entries) as [[g|m|]|].
      + exact IH.
      + destruct IH as (A & B). split; [now right|exact B].
      + destruct IH as (m & A & B). exists m. split; [now right|exact B].
      + intros m [<-|I]; [split; [exact C|eauto]|auto].
    - apply memN_false in C. exists n. split; [now left|exact C].
  Qed.

  Lemma climb_spec : forall (h : hugr), wf h -> forall fuel n m, (forall i a, hops (h_parent h) i n = Some a -> i <= fuel) -> In n (h_nodes h) ->
    In m (climb_to_module h fuel n) <-> up (h_parent h) n m /\ h_parent h m = Some (h_root h).
  Proof.
    intros h W. induction fuel as [|fuel IH]; intros n m B I.
    - cbn. split; [tauto|]. intros [U P]. assert (E : h_parent h n = None).
      { destruct (h_parent h n) as [p|] eqn:E; [|reflexivity]. specialize (B 1 p). cbn in B. rewrite E in B. specialize (B eq_refl). lia. }
      inversion U as [|? p ? Ep _]; subst; congruence.
    - cbn [climb_to_module]. unfold get_parent. destruct (contains h n && negb (N.eqb n (h_root h))) eqn:C.
      + apply andb_true_iff in C. destruct C as [_ C]. apply negb_true_iff, N.eqb_neq in C. destruct (wf_parent h W n I C) as (p & Ep & Ip). rewrite Ep.
        assert (X : In m (climb_to_module h fuel p) <-> up (h_parent h) p m /\ h_parent h m = Some (h_root h)).
        { apply IH; [|exact Ip]. intros i a Hi. specialize (B (S i) a). cbn in B. rewrite Ep in B. specialize (B Hi). lia. }
        assert (Y : up (h_parent h) n m <-> n = m \/ up (h_parent h) p m).
        { split; [|intros [<-|U]; [constructor|eapply up_next; eassumption]]. intros U. inversion U as [|? q ? Eq U']; subst; [now left|].
          right. rewrite Ep in Eq. now injection Eq as <-. }
        destruct (N.eqb_spec p (h_root h)) as [->|Ne]; cbn [In]; rewrite X, Y.
        * split; [intros [<-|[U P]]; tauto|]. intros [[<-|U] P]; auto.
        * split; [tauto|]. intros [[<-|U] P]; [congruence|auto].
      + split; [intros []|]. intros [U P]. assert (n = h_root h) as ->.
        { apply andb_false_iff in C. destruct C as [C|C]; [apply memN_false in C; contradiction|]. now apply negb_false_iff, N.eqb_eq in C. }
        apply (up_root h W) in U. subst. rewrite (wf_top h W) in P. discriminate.
  Qed.

  Lemma function_tag : forall o, within TFunction (op_tag o) = true <-> is_function o.
  Proof. intros []; cbn; split; auto; discriminate || contradiction. Qed.

  (** ** The pass *)
  Definition dead (h : hugr) (entries : list N) (f : N) : Prop :=
    h_parent h f = Some (h_root h) /\ is_function (h_ops h f) /\ ~ reachable h entries f /\ ~ below h (h_entry h) f.

  Lemma from_reachable : forall (h : hugr) entries t, wf h -> mg_table h (mg_nodes h) = Some t ->
    (forall n, In n (entries ++ (if N.eqb (h_entry h) (h_root h) then [] else [h_entry h])) -> In n (mg_nodes h)) ->
    forall n, from (targets t) (rev (entries ++ (if N.eqb (h_entry h) (h_root h) then [] else [h_entry h]))) n <-> reachable h entries n.
  Proof.
    intros h entries t W Et A n. destruct (mg_table_spec h _ t Et) as [K U]. destruct (mg_nodes_spec h W) as [_ G].
    assert (Live : forall f, In f (mg_nodes h) -> In f (h_nodes h)).
    { intros f I. apply G in I. destruct I as [[P _]|[-> _]]; [apply (wf_parent_live h W f _ P)|apply (wf_entry h W)]. }
    assert (Tg : forall f, ~ In f (map fst t) -> targets t f = []).
    { clear. intros f. induction t as [|[g us] t IH]; [reflexivity|]. cbn [map fst In targets]. intros N_. destruct (N.eqb_spec g f) as [->|_]; [tauto|]. tauto. }
    assert (Us : forall f g, In f (mg_nodes h) -> In g (targets t f) <-> uses h f g).
    { intros f g I. apply (mg_uses_spec h W f _ (Live f I) (U f I)). }
    assert (In_ : forall m, In m (rev (entries ++ (if N.eqb (h_entry h) (h_root h) then [] else [h_entry h]))) <->
                  In m entries \/ (m = h_entry h /\ h_entry h <> h_root h)).
    { intros m. rewrite <- in_rev, in_app_iff. destruct (N.eqb_spec (h_entry h) (h_root h)) as [E|E]; cbn [In]; [tauto|]. intuition. }
    assert (Next : forall f g, In f (mg_nodes h) -> In g (targets t f) -> In g (mg_nodes h)).
    { intros f g I J. pose proof (U f I) as E. unfold mg_uses in E. destruct (concat_some_spec _ _ _ E) as [_ Q]. apply Q in J. destruct J as (x & Ix & J).
      apply in_map_iff in Ix. destruct Ix as (c & Ec & _). unfold mg_edge in Ec.
      assert (Z : forall (b : bool) tt, (if match get_parent h tt with Some p => N.eqb p (h_root h) | None => false end then
          if memN tt (mg_nodes h) then Some [tt] else None else if b then Some [] else None) = Some x -> In g (mg_nodes h)).
      { intros b tt. destruct (match get_parent h tt with Some p => N.eqb p (h_root h) | None => false end).
        - destruct (memN tt (mg_nodes h)) eqn:Mt; [|discriminate]. intros X. injection X as <-. destruct J as [<-|[]]. now apply memN_iff.
        - destruct b; [|discriminate]. intros X. injection X as <-. destruct J. }
      destruct (h_ops h c); try (injection Ec as <-; destruct J); destruct (static_source h c) as [tt|]; try (injection Ec as <-; destruct J); eapply Z; exact Ec. }
    split.
    - intros X. assert (Y : reachable h entries n /\ In n (mg_nodes h)); [|tauto]. induction X as [m I|a b X [IH IH'] J].
      + split; [|apply A; now apply in_rev]. apply In_ in I. destruct I as [I|[-> Ne]]; [now constructor|now constructor].
      + split; [|eapply Next; eassumption]. eapply reach_next; [exact IH|]. now apply Us.
    - intros X. assert (Y : from (targets t) (rev (entries ++ (if N.eqb (h_entry h) (h_root h) then [] else [h_entry h]))) n /\ In n (mg_nodes h)); [|tauto].
      induction X as [m I|Ne|f g X [IH IH'] J].
      + assert (I' : In m (rev (entries ++ (if N.eqb (h_entry h) (h_root h) then [] else [h_entry h])))) by (apply In_; now left).
        split; [now constructor|]. apply A. now apply in_rev.
      + assert (I' : In (h_entry h) (rev (entries ++ (if N.eqb (h_entry h) (h_root h) then [] else [h_entry h])))) by (apply In_; now right).
        split; [now constructor|]. apply A. now apply in_rev.
      + apply Us in J; [|exact IH']. split; [eapply from_next; eassumption|]. eapply Next; eassumption.
  Qed.

  Definition table_ok (h : hugr) : Prop := exists t, mg_table h (mg_nodes h) = Some t.

  Lemma dead_funcs_spec : forall (h : hugr) entries, wf h ->
    match dead_funcs h entries with
    | DfOk h' => wf h' /\ exists R, culled h R h' /\ forall n, In n R <-> exists f, dead h entries f /\ below h n f
    | DfInvalid n => In n entries /\ In n (h_nodes h) /\ ~ exists a f b, h_ops h n = OFuncDefn a f b
    | DfPanic => (exists n, In n entries /\ ~ In n (h_nodes h)) \/ ~ table_ok h \/
                 (exists n, In n entries /\ h_parent h n <> Some (h_root h) /\ n <> h_entry h) \/
                 (h_ops h (h_entry h) = OModule /\ h_entry h <> h_root h)
    end.
  Proof.
    intros h entries W. unfold dead_funcs. pose proof (invalid_entry_spec h entries) as V. destruct (invalid_entry h entries) as [[g|n|]|]; [contradiction|exact V|now left|].
    destruct (mg_table h (mg_nodes h)) as [t|] eqn:Et; [|right; left; intros (t & X); congruence].
    set (es := entries ++ _). destruct (forallb (fun n => memN n (mg_nodes h)) es) eqn:Ef; cbn [negb].
    2:{ right. right. assert (X : exists n, In n es /\ ~ In n (mg_nodes h)).
        { clear - Ef. induction es as [|n es IH]; [discriminate|]. cbn [forallb] in Ef. destruct (memN n (mg_nodes h)) eqn:Mn.
          - destruct (IH Ef) as (m & I & Nm). exists m. split; [now right|exact Nm].
          - exists n. split; [now left|now apply memN_false]. }
        destruct X as (n & I & Nn). unfold es in I. apply in_app_iff in I. rewrite (proj2 (mg_nodes_spec h W)) in Nn. destruct I as [I|I].
        - left. exists n. split; [exact I|]. destruct (V n I) as (L & a & f & b & Eo). rewrite Eo in Nn. split.
          + intros P. apply Nn. left. split; [exact P|reflexivity].
          + intros ->. apply Nn. right. split; [reflexivity|discriminate].
        - right. destruct (N.eqb_spec (h_entry h) (h_root h)) as [E|E]; [destruct I|]. destruct I as [<-|[]]. split; [|exact E].
          destruct (h_ops h (h_entry h)) eqn:Eo; try reflexivity; exfalso; apply Nn; right; (split; [reflexivity|discriminate]). }
    assert (A : forall n, In n es -> In n (mg_nodes h)) by (intros n I; rewrite forallb_forall in Ef; now apply memN_iff, Ef).
    destruct (mg_table_spec h _ t Et) as [K U]. destruct (mg_nodes_spec h W) as [D G].
    destruct (dfs_spec t (rev es) ltac:(rewrite K; exact D) (length es + list_sum (map (fun x => length (snd x)) t)) [] (rev es)) as (seen & Es & Hs).
    { intros n [[]|I]. now constructor. }
    { auto. }
    { intros n m []. }
    { rewrite rev_length. unfold open_edges. cbn [memN existsb negb]. rewrite filter_all by reflexivity. lia. }
    rewrite Es. pose proof (from_reachable h entries t W Et A) as Fr. fold es in Fr.
    set (rch := filter _ seen ++ _). set (ds := filter _ (h_kids h (h_root h))).
    assert (Hd : forall f, In f ds <-> dead h entries f).
    { intros f. unfold ds, dead, rch. rewrite filter_In, (wf_kids h W), andb_true_iff, negb_true_iff, memN_false, function_tag, in_app_iff, filter_In, Hs, Fr, (climb_spec h W).
      - unfold below. split.
        + intros (P & F & N_). split; [exact P|]. split; [exact F|]. split; [|tauto]. intros X. apply N_. left. split; [exact X|]. destruct (h_ops h f); reflexivity || destruct F.
        + intros (P & F & N1 & N2). tauto.
      - intros i a Hi. apply Nat.lt_le_incl. eapply (hops_bound (h_parent h) (h_root h) (h_nodes h) (wf_top h W) (wf_parent h W)); [apply (wf_entry h W)| |exact Hi].
        apply (wf_reach h W), (wf_entry h W).
      - apply (wf_entry h W). }
    destruct (remove_trees_spec h W ds [] h (culled_none h) W) as (h' & R' & E' & C' & W' & X).
    { apply NoDup_filter, (wf_kids_once h W). }
    { intros m []. }
    { intros n I. apply Hd in I. destruct I as (P & _ & _ & N_). auto. }
    rewrite E'. split; [exact W'|]. exists R'. split; [exact C'|]. intros n. rewrite X. cbn [In]. split.
    - intros [[]|(f & I & U')]. exists f. split; [now apply Hd|exact U'].
    - intros (f & I & U'). right. exists f. split; [now apply Hd|exact U'].
  Qed.
End Funcs.
