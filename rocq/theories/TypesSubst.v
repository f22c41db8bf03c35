(** Substitution: accepted arguments, validity, stages. *)
From Coq Require Import List Bool NArith Arith Lia.
From Verif Require Import TypesModel TypesSpec TypesProofs.
Import ListNotations.

(** ** Substituted lists in the plain fragment *)
Definition expand (t : term) : list term := match t with MList l => l | _ => [t] end.
Definition not_concat (t : term) : Prop := match t with MListConcat _ => False | _ => True end.

Lemma from_parts_false : forall l, list_from_parts (map (list_elem_part false) l) = MList l.
Proof.
  intros l. rewrite (map_ext (list_elem_part false) Item).
  - apply list_from_items.
  - intros []; reflexivity.
Qed.

Lemma from_parts_true : forall l, Forall not_concat l ->
  list_from_parts (map (list_elem_part true) l) = MList (flat_map expand l).
Proof.
  intros l F. unfold list_from_parts.
  replace (flat_map _ (map (list_elem_part true) l)) with (map (@Item term) (flat_map expand l)).
  - apply (seq_from_items MList MListConcat _ []).
  - induction F as [|a l H F IH]; [reflexivity|]. cbn [map flat_map]. rewrite map_app, IH. f_equal.
    destruct a; cbn in H |- *; try reflexivity; try contradiction.
Qed.

Lemma plain_not_concat : forall t, plain_term true t = true -> not_concat t.
Proof. intros [] H; cbn in *; auto. discriminate. Qed.

Lemma plain_list : forall rows l, plain_term rows (MList l) = true <->
  Forall (fun t => plain_term rows t = true) l /\
  (Forall (fun t => is_type t = true) l \/ Forall (fun t => is_type t = false) l).
Proof.
  intros rows l. cbn [plain_term]. rewrite andb_true_iff, orb_true_iff, !forallb_Forall_iff.
  assert (X : Forall (fun a => negb (is_type a) = true) l <-> Forall (fun t => is_type t = false) l).
  { rewrite !Forall_forall. split; intros H x I; specialize (H x I); destruct (is_type x); cbn in *; congruence. }
  rewrite X. tauto.
Qed.

Lemma is_type_plain : forall t, is_type t = true ->
  (exists x, t = MType x) \/ (exists i b, t = MVar i (KList (KType b))).
Proof.
  intros t H. destruct t; cbn in H; try discriminate; [left; eauto|right].
  destruct (row_bound t) eqn:E; [|discriminate]. apply row_bound_iff in E. subst. eauto.
Qed.

(** A plain argument for a row parameter. *)
Lemma row_arg : forall a b, plain_term true a = true -> check_term a (KList (KType b)) = true ->
  (exists l, a = MList l /\ Forall (fun t => is_type t = true) l) \/
  (exists i b', a = MVar i (KList (KType b')) /\ bcontains b b' = true).
Proof.
  intros a b P H. destruct a; cbn [check_term] in H; try discriminate.
  - left. exists l. split; [reflexivity|]. apply Forall_forall. intros e I.
    apply plain_list in P. destruct P as [P _]. rewrite Forall_forall in P. specialize (P e I).
    destruct (check_row_elem l b e H I) as [(x & -> & _)|[(i & b' & -> & _)|(i & b' & -> & _)]]; auto.
  - right. destruct a; cbn [is_supertype] in H; try discriminate.
    destruct a; cbn [is_supertype] in H; try discriminate. eauto.
Qed.

Lemma subst_type_inv : forall env s x a, subst_term env s (MType x) = Some a ->
  exists y, a = MType y /\ subst_ty env s x = Some [y].
Proof.
  intros env s x a. rewrite subst_type_eq. destruct (subst_ty env s x) as [[|y []]|]; try discriminate.
  intros E. injection E as <-. eauto.
Qed.

(** ** Arguments that fit *)
Section Fit.
  Variable env : N -> N -> option typedef.
  Variables (decls args : list term).
  Hypothesis fit : check_terms args decls = true.
  Hypothesis plain_args : Forall (fun t => plain_term true t = true) args.

  Lemma arg_nth : forall i k, nth_error decls i = Some k ->
    exists a, nth_error args i = Some a /\ check_term a k = true /\ plain_term true a = true.
  Proof.
    intros i k E. pose proof (proj1 (check_terms_iff _ _) fit) as F.
    destruct (Forall2_nth_r _ _ _ _ _ F E) as (a & Ea & C). exists a. split; [exact Ea|]. split; [exact C|].
    rewrite Forall_forall in plain_args. apply plain_args. eapply nth_error_In. exact Ea.
  Qed.

  (** The outcome for one element of a list of types. *)
  Lemma type_elem : forall e e', is_type e = true -> valid_term env decls e = true ->
    subst_term env args e = Some e' ->
    (exists x y, e = MType x /\ e' = MType y /\ subst_ty env args x = Some [y]) \/
    (exists i b l, e = MVar i (KList (KType b)) /\ e' = MList l /\ Forall (fun t => is_type t = true) l /\
                   nth_error args i = Some e' /\ check_term e' (KList (KType b)) = true) \/
    (exists i b j b', e = MVar i (KList (KType b)) /\ e' = MVar j (KList (KType b')) /\
                      nth_error args i = Some e' /\ bcontains b b' = true).
  Proof.
    intros e e' T V E. destruct (is_type_plain _ T) as [(x & ->)|(i & b & ->)].
    - left. apply subst_type_inv in E. destruct E as (y & -> & E). eauto 6.
    - right. autorewrite with valids substs in *. apply check_decl_iff in V.
      destruct (arg_nth _ _ V) as (a & Ea & C & P). rewrite Ea in E. injection E as <-.
      destruct (row_arg _ _ P C) as [(l & -> & Fl)|(j & b' & -> & Cb)].
      + left. eauto 8.
      + right. eauto 9.
  Qed.

  Lemma type_elems_concat : forall l l', Forall (fun t => is_type t = true) l ->
    Forall (fun t => valid_term env decls t = true) l ->
    Forall2 (fun a b => subst_term env args a = Some b) l l' -> Forall not_concat l'.
  Proof.
    intros l l' T V F. apply Forall_forall. intros e' I.
    destruct (Forall2_In_r _ _ _ _ F I) as (e & J & E). rewrite Forall_forall in T, V.
    destruct (type_elem e e' (T e J) (V e J) E) as
      [(x & y & -> & -> & _)|[(i & b & m & -> & -> & _)|(i & b & j & b' & -> & -> & _)]]; constructor.
  Qed.

  Lemma expand_types : forall l l', Forall (fun t => is_type t = true) l ->
    Forall (fun t => valid_term env decls t = true) l ->
    Forall2 (fun a b => subst_term env args a = Some b) l l' ->
    Forall (fun t => is_type t = true) (flat_map expand l').
  Proof.
    intros l l' T V F. apply Forall_forall. intros t It. apply in_flat_map in It. destruct It as (e' & I & J).
    destruct (Forall2_In_r _ _ _ _ F I) as (e & Je & E). rewrite Forall_forall in T, V.
    destruct (type_elem e e' (T e Je) (V e Je) E) as
      [(x & y & -> & -> & _)|[(i & b & m & -> & -> & Fm & _)|(i & b & j & b' & -> & -> & _)]]; cbn [expand] in J.
    - destruct J as [<-|[]]. reflexivity.
    - rewrite Forall_forall in Fm. auto.
    - destruct J as [<-|[]]. reflexivity.
  Qed.

  (** The two cases of a substituted plain list. *)
  Lemma subst_types : forall l l', Forall (fun t => is_type t = true) l ->
    Forall (fun t => valid_term env decls t = true) l ->
    Forall2 (fun a b => subst_term env args a = Some b) l l' ->
    subst_term env args (MList l) = Some (MList (flat_map expand l')).
  Proof.
    intros l l' T V F. rewrite subst_list_eq, (proj2 (all_some_Forall2 _ _ _) F). cbn [option_map]. f_equal.
    pose proof (type_elems_concat _ _ T V F) as NC. destruct l as [|e l].
    - inversion F. subst. reflexivity.
    - inversion T. subst. replace (is_type e) with true by congruence. apply from_parts_true. exact NC.
  Qed.

  Lemma subst_others : forall l l', Forall (fun t => is_type t = false) l ->
    Forall2 (fun a b => subst_term env args a = Some b) l l' ->
    subst_term env args (MList l) = Some (MList l').
  Proof.
    intros l l' T F. rewrite subst_list_eq, (proj2 (all_some_Forall2 _ _ _) F). cbn [option_map]. f_equal.
    replace (match l with [] => false | e :: _ => is_type e end) with false.
    - apply from_parts_false.
    - destruct l; [reflexivity|]. inversion T. congruence.
  Qed.

  (** What is not a type stays not a type. *)
  Lemma other_elem : forall e e', is_type e = false -> plain_term true e = true -> valid_term env decls e = true ->
    subst_term env args e = Some e' -> is_type e' = false.
  Proof.
    intros e e' T P V E. destruct e; cbn [plain_term] in P; try discriminate; autorewrite with substs in E;
      try (injection E as <-; reflexivity).
    - destruct (subst_term env args e); [|discriminate]. injection E as <-. reflexivity.
    - destruct (subst_ty env args t) as [[|y []]|]; try discriminate. injection E as <-. reflexivity.
    - change (plain_term true (MList l) = true) in P. apply plain_list in P. destruct P as [P _].
      destruct (all_some (map (subst_term env args) l)) as [l'|] eqn:El; [|discriminate].
      cbn [option_map] in E. injection E as <-. unfold list_from_parts.
      assert (X : forall ps items seqs, is_type (seq_from MList MListConcat items seqs ps) = false).
      { induction ps as [|[t|t] ps IH]; intros items seqs; cbn [seq_from]; auto.
        destruct seqs; [reflexivity|]. destruct items; reflexivity. }
      apply X.
    - destruct (all_some (map (subst_term env args) l)) as [l'|]; [|discriminate]. injection E as <-. reflexivity.
    - autorewrite with valids in V.
      assert (V' : nth_error decls i = Some e) by (destruct e; try discriminate; apply check_decl_iff; exact V).
      destruct (arg_nth _ _ V') as (a & Ea & C & Pa). rewrite Ea in E. injection E as <-.
      destruct (is_type a) eqn:Ta; [|reflexivity]. exfalso.
      destruct (is_type_plain _ Ta) as [(x & ->)|(j & b & ->)].
      + cbn [check_term] in C. destruct e; try discriminate.
      + cbn [check_term] in C. destruct e; cbn [is_supertype] in C; try discriminate.
        destruct e; cbn [is_supertype] in C; try discriminate.
  Qed.

  (** *** Kinds are kept *)
  Lemma flat_item : forall k, flat_kind (KList k) = true -> flat_kind k = true.
  Proof.
    intros k H. destruct k; auto. destruct k; auto.
  Qed.

  Lemma flat_parts : forall k, flat_kind k = true -> Forall (on_part (fun t => flat_kind t = true)) (list_parts k).
  Proof.
    intros k. apply (list_parts_ok (fun t => flat_kind t = true)); intros l H; cbn [flat_kind] in H; now apply forallb_Forall_iff.
  Qed.

  Lemma elem_check : forall e item, check_term e item = true ->
    match e, item with
    | MVar _ decl, KType pb =>
      match row_bound decl with
      | Some ab => bcontains pb ab || check_term e item
      | None => check_term e item
      end
    | _, _ => check_term e item
    end = true.
  Proof.
    intros e item H. destruct e; auto. destruct item; auto. destruct (row_bound e); auto.
    rewrite H. apply orb_true_r.
  Qed.

  Lemma zip_keeps : forall l l' ks,
    Forall2 (fun a a' => forall k, flat_kind k = true -> check_term a k = true -> check_term a' k = true) l l' ->
    Forall (on_part (fun t => flat_kind t = true)) ks ->
    check_zip (map (fun e => Item (check_term e)) l) ks = true ->
    check_zip (map (fun e => Item (check_term e)) l') ks = true.
  Proof.
    intros l l' ks F. revert ks. induction F as [|a a' l l' H F IH]; intros ks G; cbn [map check_zip]; auto.
    destruct G as [|[k|k] ks Hk G]; auto. rewrite !andb_true_iff. intros [X Y]. cbn [on_part] in Hk. auto.
  Qed.

  Lemma subst_check : forall a, valid_term env decls a = true -> cached_term a -> plain_term true a = true ->
    forall a', subst_term env args a = Some a' ->
    forall k, flat_kind k = true -> check_term a k = true -> check_term a' k = true.
  Proof.
    refine (proj2 (both_ind (fun _ => True) (fun a =>
      valid_term env decls a = true -> cached_term a -> plain_term true a = true ->
      forall a', subst_term env args a = Some a' ->
      forall k, flat_kind k = true -> check_term a k = true -> check_term a' k = true)
      _ _ _ _ _ _ _ _ _ _ _ _ _ _ _ _ _ _ _ _ _ _ _ _ _)); auto;
      try (intros; match goal with H : _ = Some _ |- _ => injection H as <- end; assumption);
      try (intros; discriminate).
    - intros x _ V Ca P a' E k FK C. autorewrite with substs in E.
      destruct (subst_term env args x); [|discriminate]. injection E as <-. exact C.
    - intros x _ V Ca P a' E k FK C. autorewrite with substs in E.
      destruct (subst_ty env args x) as [[|y []]|]; try discriminate. injection E as <-. exact C.
    - intros x _ V Ca P a' E k FK C.
      destruct (proj2 (subst_bound_both env decls args fit) (MType x) V Ca a' E x eq_refl) as (y & -> & B).
      cbn [check_term] in *. destruct k; try discriminate. eapply bcontains_trans; eassumption.
    - intros l F V Ca P a' E k FK C. apply plain_list in P. destruct P as [P H].
      autorewrite with valids in V. rewrite forallb_Forall_iff in V.
      cbn [cached_term] in Ca. rewrite fold_and in Ca.
      rewrite subst_list_eq in E.
      destruct (all_some (map (subst_term env args) l)) as [l'|] eqn:El; [|discriminate].
      rewrite <- El, <- subst_list_eq in E. apply all_some_Forall2 in El.
      assert (IH : forall e e', In e l -> subst_term env args e = Some e' ->
                   forall k, flat_kind k = true -> check_term e k = true -> check_term e' k = true).
      { intros e e' I. rewrite Forall_forall in F, V, Ca, P. apply F; auto. }
      destruct H as [T|T].
      + rewrite (subst_types _ _ T V El) in E. injection E as <-.
        cbn [check_term] in C. destruct k; try discriminate. rename k into item.
        assert (EI : l = [] \/ exists b, item = KType b).
        { destruct l as [|e l]; [auto|right]. cbn [forallb] in C. apply andb_true_iff in C. destruct C as [C _].
          inversion T as [|? ? Te _]. subst. destruct (is_type_plain _ Te) as [(x & ->)|(i & b & ->)].
          - cbn [check_term] in C. destruct item; try discriminate. eauto.
          - destruct item; cbn [check_term is_supertype] in C; try discriminate; [eauto|].
            destruct item; cbn [is_supertype] in C; try discriminate. }
        destruct EI as [->|(b & ->)].
        * inversion El. subst. reflexivity.
        * change (check_term (MList l) (KList (KType b)) = true) in C.
          apply forallb_forall. intros t It. apply in_flat_map in It. destruct It as (e' & I & J).
          destruct (Forall2_In_r _ _ _ _ El I) as (e & Je & E).
          pose proof T as T'. rewrite Forall_forall in T', V.
          destruct (type_elem e e' (T' e Je) (V e Je) E) as
            [(x & y & -> & -> & _)|[(i & b2 & m & -> & -> & Fm & _ & C2)|(i & b2 & j & b' & -> & -> & _ & C2)]];
            cbn [expand] in J.
          -- destruct J as [<-|[]]. destruct (check_row_elem _ _ _ C Je) as [(z & Ez & Cz)|[(z & ? & Ez & _)|(z & ? & Ez & _)]]; try discriminate.
             injection Ez as <-. eapply (IH _ _ Je E (KType b)); [reflexivity|exact Cz].
          -- destruct (check_row_elem _ _ _ C Je) as [(z & Ez & Cz)|[(z & b3 & Ez & Cz)|(z & b3 & Ez & Cz)]]; try discriminate.
             injection Ez as <- <-.
             assert (C3 : check_term (MList m) (KList (KType b)) = true) by (eapply check_mono; [|exact C2]; exact Cz).
             cbn [check_term] in C3. rewrite forallb_forall in C3. exact (C3 t J).
          -- destruct J as [<-|[]]. destruct (check_row_elem _ _ _ C Je) as [(z & Ez & Cz)|[(z & b3 & Ez & Cz)|(z & b3 & Ez & Cz)]]; try discriminate.
             injection Ez as <- <-. cbn [row_bound]. rewrite (bcontains_trans _ _ _ Cz C2). reflexivity.
      + rewrite (subst_others _ _ T El) in E. injection E as <-.
        cbn [check_term] in C |- *. destruct k; try discriminate. apply forallb_forall. intros e' I.
        destruct (Forall2_In_r _ _ _ _ El I) as (e & Je & E). apply elem_check.
        apply (IH _ _ Je E); [apply flat_item; exact FK|].
        rewrite forallb_forall in C. specialize (C e Je). rewrite Forall_forall in T. specialize (T e Je).
        destruct e; auto. destruct k; auto. cbn in T. destruct (row_bound e); [discriminate|exact C].
    - intros l F V Ca P a' E k FK C. cbn [plain_term] in P. rewrite forallb_Forall_iff in P.
      autorewrite with valids in V. rewrite forallb_Forall_iff in V.
      cbn [cached_term] in Ca. rewrite fold_and in Ca. autorewrite with substs in E.
      destruct (all_some (map (subst_term env args) l)) as [l'|] eqn:El; [|discriminate].
      injection E as <-. apply all_some_Forall2 in El. cbn [check_term] in *. destruct k; try discriminate.
      eapply zip_keeps; [|apply flat_parts; exact FK|exact C].
      eapply Forall2_impl_In; [|exact El]. intros a a' Ia _ Es k' FK' C'.
      rewrite Forall_forall in F, V, Ca, P. eapply F; eauto.
    - intros i d _ V Ca P a' E k FK C. autorewrite with substs valids in *.
      assert (V' : nth_error decls i = Some d) by (destruct d; try discriminate; apply check_decl_iff; exact V).
      destruct (arg_nth _ _ V') as (a & Ea & Ck & _). rewrite Ea in E. injection E as <-.
      cbn [check_term] in C. eapply check_mono; eassumption.
  Qed.

  (** *** Validity is kept *)
  Variable outer : list term.
  Hypothesis valid_args : Forall (fun t => valid_term env outer t = true) args.
  Hypothesis flat_env : forall e i d, env e i = Some d -> Forall (fun k => flat_kind k = true) (td_params d).

  Lemma row_elem_valid : forall t ty', is_type t = true -> valid_term env outer t = true ->
    rowvar_elem t = Some ty' -> valid_ty env outer ty' = true.
  Proof.
    intros t ty' T V E. destruct (is_type_plain _ T) as [(x & ->)|(i & b & ->)]; cbn in E; injection E as <-; exact V.
  Qed.

  Lemma check_terms_keeps : forall ar ar' ks,
    Forall2 (fun a a' => forall k, flat_kind k = true -> check_term a k = true -> check_term a' k = true) ar ar' ->
    Forall (fun k => flat_kind k = true) ks -> check_terms ar ks = true -> check_terms ar' ks = true.
  Proof.
    intros ar ar' ks F. revert ks. induction F as [|a a' ar ar' H F IH]; intros [|k ks] G; cbn [check_terms list_eqb]; auto.
    inversion G. subst. fold (check_terms ar ks) (check_terms ar' ks). rewrite !andb_true_iff. intros [X Y]. auto.
  Qed.

  Lemma subst_valid_both :
    (forall t, valid_ty env decls t = true -> cached_ty t -> plain_ty true t = true ->
       forall l, subst_ty env args t = Some l -> Forall (fun r => valid_ty env outer r = true) l) /\
    (forall t, valid_term env decls t = true -> cached_term t -> plain_term true t = true ->
       forall t', subst_term env args t = Some t' -> valid_term env outer t' = true).
  Proof.
    assert (ARG : forall i a, nth_error args i = Some a -> valid_term env outer a = true).
    { intros i a E. rewrite Forall_forall in valid_args. apply valid_args. eapply nth_error_In. exact E. }
    apply both_ind; try (intros; discriminate);
      try (intros; match goal with H : _ = Some _ |- _ => injection H as <- end; reflexivity).
    - intros e i ar b F V Ca P l. autorewrite with substs. autorewrite with valids in V.
      cbn [plain_ty] in P. rewrite forallb_Forall_iff in P. cbn [cached_ty] in Ca. rewrite fold_and in Ca.
      destruct (all_some (map (subst_term env args) ar)) as [ar'|] eqn:E; [|discriminate].
      destruct (env e i) as [d|] eqn:Ed; [|rewrite andb_false_r in V; discriminate].
      destruct (def_bound d ar') as [b'|] eqn:Eb; [|discriminate].
      intros X. injection X as <-. constructor; [|constructor]. autorewrite with valids. rewrite Ed, Eb.
      rewrite !andb_true_iff in V. destruct V as (V1 & V2 & _). rewrite forallb_Forall_iff in V1.
      apply all_some_Forall2 in E. rewrite !andb_true_iff, beqb_eq. split; [|split; [|reflexivity]].
      + apply forallb_Forall_iff. eapply Forall2_Forall_r; [exact E|]. intros a a' I Ea.
        rewrite Forall_forall in F, V1, Ca, P. eapply F; eauto.
      + eapply check_terms_keeps; [|eapply flat_env; exact Ed|exact V2].
        eapply Forall2_impl_In; [|exact E]. intros a a' I _ Ea k FK C.
        rewrite Forall_forall in V1, Ca, P. eapply subst_check; eauto.
    - intros n b _ _ _ l X. injection X as <-. constructor; [reflexivity|constructor].
    - intros x y Fx Fy V Ca P l. autorewrite with substs. autorewrite with valids in V.
      cbn [plain_ty] in P. rewrite andb_true_iff in V, P. rewrite !forallb_Forall_iff in V, P.
      cbn [cached_ty] in Ca. rewrite !fold_and in Ca. destruct V as [V1 V2], P as [P1 P2], Ca as [C1 C2].
      destruct (all_some (map (subst_ty env args) x)) as [x'|] eqn:E1; [|discriminate].
      destruct (all_some (map (subst_ty env args) y)) as [y'|] eqn:E2; [|discriminate].
      intros X. injection X as <-. constructor; [|constructor]. autorewrite with valids.
      apply all_some_Forall2 in E1, E2. rewrite Forall_forall in Fx, Fy, V1, V2, P1, P2, C1, C2.
      rewrite andb_true_iff, !forallb_Forall_iff. split; apply Forall_concat'.
      + eapply Forall2_Forall_r; [exact E1|]. intros a a' I Ea. eapply Fx; eauto.
      + eapply Forall2_Forall_r; [exact E2|]. intros a a' I Ea. eapply Fy; eauto.
    - intros i b V _ _ l. autorewrite with substs. destruct (nth_error args i) as [[]|] eqn:E; try discriminate.
      intros X. injection X as <-. constructor; [|constructor]. apply ARG in E. exact E.
    - intros i b V _ _ l. autorewrite with substs. autorewrite with valids in V. apply check_decl_iff in V.
      destruct (arg_nth _ _ V) as (a & Ea & C & Pa). unfold apply_rowvar. rewrite Ea.
      destruct (row_arg _ _ Pa C) as [(m & -> & Fm)|(j & b' & -> & _)]; [|discriminate].
      intros X. apply all_some_Forall2 in X. eapply Forall2_Forall_r; [exact X|]. intros e t' I Er.
      apply ARG in Ea. autorewrite with valids in Ea. rewrite forallb_forall in Ea. rewrite Forall_forall in Fm.
      eapply row_elem_valid; eauto.
    - intros rows b F V Ca P l. autorewrite with substs. autorewrite with valids in V.
      cbn [plain_ty] in P. rewrite forallb2_Forall in V, P. cbn [cached_ty] in Ca. destruct Ca as [Ca _].
      rewrite fold_and in Ca.
      destruct (all_some (map (subst_row env args) rows)) as [rows'|] eqn:E; [|discriminate].
      intros X. injection X as <-. constructor; [|constructor]. unfold new_sum. autorewrite with valids.
      apply forallb2_Forall. apply all_some_Forall2 in E. eapply Forall2_Forall_r; [exact E|].
      intros row row' I Er. unfold subst_row in Er.
      destruct (all_some (map (subst_ty env args) row)) as [r|] eqn:E2; [|discriminate].
      injection Er as <-. apply all_some_Forall2 in E2. apply Forall_concat'.
      eapply Forall2_Forall_r; [exact E2|]. intros a a' J Ea.
      rewrite Forall_forall in F, V, P, Ca. specialize (F row I). specialize (V row I). specialize (P row I).
      specialize (Ca row I). rewrite fold_and in Ca. rewrite Forall_forall in F, V, P, Ca. eapply F; eauto.
    - intros x IH V Ca P t' E. autorewrite with substs valids in *.
      destruct (subst_term env args x) eqn:Ex; [|discriminate]. injection E as <-. autorewrite with valids.
      cbn [plain_term cached_term] in *. eauto.
    - intros x IH V Ca P t' E. autorewrite with substs valids in *.
      destruct (subst_ty env args x) as [[|y []]|] eqn:Ex; try discriminate. injection E as <-. autorewrite with valids.
      cbn [plain_term cached_term] in *. apply andb_true_iff in P. destruct P as [_ P].
      specialize (IH V Ca P _ eq_refl). inversion IH. assumption.
    - intros x IH V Ca P t' E. autorewrite with substs valids in *.
      destruct (subst_ty env args x) as [[|y []]|] eqn:Ex; try discriminate. injection E as <-. autorewrite with valids.
      cbn [plain_term cached_term] in *. apply andb_true_iff in P. destruct P as [_ P].
      specialize (IH V Ca P _ eq_refl). inversion IH. assumption.
    - intros l F V Ca P t' E. apply plain_list in P. destruct P as [P H].
      autorewrite with valids in V. rewrite forallb_Forall_iff in V.
      cbn [cached_term] in Ca. rewrite fold_and in Ca. rewrite subst_list_eq in E.
      destruct (all_some (map (subst_term env args) l)) as [l'|] eqn:El; [|discriminate].
      cbn [option_map] in E. injection E as <-. apply all_some_Forall2 in El.
      apply (list_from_parts_ok (fun t => valid_term env outer t = true)).
      + intros m. autorewrite with valids. apply forallb_Forall_iff.
      + intros m. autorewrite with valids. apply forallb_Forall_iff.
      + apply Forall_forall. intros p I. apply in_map_iff in I. destruct I as (a' & <- & I).
        apply elem_part_on. destruct (Forall2_In_r _ _ _ _ El I) as (a & J & Ea).
        rewrite Forall_forall in F, V, Ca, P. eapply F; eauto.
    - intros l F V Ca P t' E. cbn [plain_term] in P. rewrite forallb_Forall_iff in P.
      autorewrite with valids substs in *. rewrite forallb_Forall_iff in V.
      cbn [cached_term] in Ca. rewrite fold_and in Ca.
      destruct (all_some (map (subst_term env args) l)) as [l'|] eqn:El; [|discriminate].
      cbn [option_map] in E. injection E as <-. apply all_some_Forall2 in El. autorewrite with valids.
      apply forallb_Forall_iff. eapply Forall2_Forall_r; [exact El|]. intros a a' J Ea.
      rewrite Forall_forall in F, V, Ca, P. eapply F; eauto.
    - intros i d _ V Ca P t' E. autorewrite with substs in E. eapply ARG. exact E.
  Qed.

  (** *** No panic *)
  Hypothesis listed : rows_listed args decls.
  Hypothesis sane_env : forall e i d, env e i = Some d -> sane_def d.

  Lemma def_lub_total : forall ar is acc,
    (forall i, In i is -> exists x, nth_error ar i = Some (MType x)) -> def_lub ar acc is <> None.
  Proof.
    clear. intros ar is. induction is as [|i is IH]; intros acc H; cbn [def_lub]; [discriminate|].
    destruct (H i (or_introl eq_refl)) as (x & ->).
    destruct (_ || _); [discriminate|]. apply IH. intros j J. apply H. right. exact J.
  Qed.

  Lemma subst_total_both :
    (forall t, valid_ty env decls t = true -> plain_ty true t = true ->
       exists l, subst_ty env args t = Some l /\ (single t = true -> length l = 1)) /\
    (forall t, valid_term env decls t = true -> plain_term true t = true ->
       exists t', subst_term env args t = Some t').
  Proof.
    assert (LIST : forall l, Forall (fun t => valid_term env decls t = true -> plain_term true t = true ->
                     exists t', subst_term env args t = Some t') l ->
                   Forall (fun t => valid_term env decls t = true) l ->
                   Forall (fun t => plain_term true t = true) l ->
                   exists l', all_some (map (subst_term env args) l) = Some l').
    { intros l F V P. destruct (all_some (map (subst_term env args) l)) eqn:E; [eauto|].
      apply all_some_None in E. destruct E as (a & I & E). rewrite Forall_forall in F, V, P.
      destruct (F a I (V a I) (P a I)). congruence. }
    assert (ROW : forall x, Forall (fun t => valid_ty env decls t = true -> plain_ty true t = true ->
                     exists l, subst_ty env args t = Some l /\ (single t = true -> length l = 1)) x ->
                   Forall (fun t => valid_ty env decls t = true) x ->
                   Forall (fun t => plain_ty true t = true) x ->
                   exists l', all_some (map (subst_ty env args) x) = Some l').
    { intros l F V P. destruct (all_some (map (subst_ty env args) l)) eqn:E; [eauto|].
      apply all_some_None in E. destruct E as (a & I & E). rewrite Forall_forall in F, V, P.
      destruct (F a I (V a I) (P a I)) as (? & E2 & _). congruence. }
    apply both_ind; try (intros; discriminate); try (intros; eexists; reflexivity).
    - intros e i ar b F V P. autorewrite with substs. autorewrite with valids in V.
      cbn [plain_ty] in P. rewrite forallb_Forall_iff in P. apply andb_true_iff in V. destruct V as [V1 V2].
      rewrite forallb_Forall_iff in V1. destruct (LIST _ F V1 P) as (ar' & E). rewrite E.
      destruct (env e i) as [d|] eqn:Ed; [|discriminate]. apply andb_true_iff in V2. destruct V2 as [V2 _].
      assert (NB : def_bound d ar' <> None).
      { unfold def_bound. pose proof (sane_env _ _ _ Ed) as S. unfold sane_def in S.
        destruct (td_bound d) as [bd|[|j is]]; try discriminate. apply def_lub_total.
        intros k Ik. destruct (S k Ik) as (kb & Ek). apply check_terms_iff in V2.
        destruct (Forall2_nth_r _ _ _ _ _ V2 Ek) as (a & Ea & Ca). apply all_some_Forall2 in E.
        destruct (Forall2_nth_l _ _ _ _ _ E Ea) as (a' & Ea' & Es).
        apply nth_error_In in Ea. rewrite Forall_forall in V1. specialize (V1 a Ea).
        destruct (check_type_arg _ _ Ca) as [(x & -> & _)|(z & bz & -> & _)]; [|discriminate V1].
        apply subst_type_inv in Es. destruct Es as (y & -> & _). eauto. }
      destruct (def_bound d ar') as [b'|]; [|congruence]. eexists. split; [reflexivity|reflexivity].
    - intros n b _ _. eexists. split; reflexivity.
    - intros x y Fx Fy V P. autorewrite with substs valids in *. cbn [plain_ty] in P.
      rewrite andb_true_iff, !forallb_Forall_iff in V, P. destruct V as [V1 V2], P as [P1 P2].
      destruct (ROW _ Fx V1 P1) as (x' & ->). destruct (ROW _ Fy V2 P2) as (y' & ->).
      eexists. split; reflexivity.
    - intros i b V _. autorewrite with substs valids in *. apply check_decl_iff in V.
      destruct (arg_nth _ _ V) as (a & Ea & C & Pa). rewrite Ea.
      destruct (check_type_arg _ _ C) as [(x & -> & _)|(z & bz & -> & _)]; [|discriminate Pa].
      eexists. split; reflexivity.
    - intros i b V _. autorewrite with substs valids in *. apply check_decl_iff in V.
      destruct (arg_nth _ _ V) as (a & Ea & C & Pa). unfold apply_rowvar. rewrite Ea.
      destruct (listed _ _ _ Ea V) as (l & ->).
      destruct (row_arg _ _ Pa C) as [(m & Em & Fm)|(j & b' & Em & _)]; [|discriminate]. injection Em as <-.
      destruct (all_some (map rowvar_elem l)) as [r|] eqn:E.
      + exists r. split; [reflexivity|discriminate].
      + apply all_some_None in E. destruct E as (t & I & E). rewrite Forall_forall in Fm.
        destruct (is_type_plain _ (Fm t I)) as [(x & ->)|(z & bz & ->)]; discriminate E.
    - intros rows b F V P. autorewrite with substs valids in *. cbn [plain_ty] in P.
      rewrite forallb2_Forall in V, P.
      destruct (all_some (map (subst_row env args) rows)) as [rows'|] eqn:E.
      + eexists. split; reflexivity.
      + apply all_some_None in E. destruct E as (row & I & E). rewrite Forall_forall in F, V, P.
        destruct (ROW row (F row I) (V row I) (P row I)) as (r & Er). unfold subst_row in E. rewrite Er in E.
        discriminate.
    - intros x IH V P. autorewrite with substs valids in *. destruct (IH V P) as (y & ->). eexists. reflexivity.
    - intros x IH V P. autorewrite with substs valids in *. cbn [plain_term] in P. apply andb_true_iff in P.
      destruct P as [S P]. destruct (IH V P) as (l & -> & L). specialize (L S).
      destruct l as [|y [|]]; try discriminate. eexists. reflexivity.
    - intros x IH V P. autorewrite with substs valids in *. cbn [plain_term] in P. apply andb_true_iff in P.
      destruct P as [S P]. destruct (IH V P) as (l & -> & L). specialize (L S).
      destruct l as [|y [|]]; try discriminate. eexists. reflexivity.
    - intros l F V P. autorewrite with valids substs in *. rewrite forallb_Forall_iff in V.
      apply plain_list in P. destruct P as [P _]. destruct (LIST _ F V P) as (l' & ->). eexists. reflexivity.
    - intros l F V P. autorewrite with valids substs in *. cbn [plain_term] in P.
      rewrite forallb_Forall_iff in V, P. destruct (LIST _ F V P) as (l' & ->). eexists. reflexivity.
    - intros i d _ V P. autorewrite with valids substs in *.
      assert (V' : nth_error decls i = Some d) by (destruct d; try discriminate; apply check_decl_iff; exact V).
      destruct (arg_nth _ _ V') as (a & Ea & _). eauto.
  Qed.
End Fit.

(** ** Substituting in stages *)
Lemma subst_row_iff : forall env s x r,
  subst_row env s x = Some r <-> exists rs, Forall2 (fun a b => subst_ty env s a = Some b) x rs /\ r = concat rs.
Proof.
  intros env s x r. unfold subst_row. split.
  - destruct (all_some (map (subst_ty env s) x)) as [rs|] eqn:E; [|discriminate].
    intros X. injection X as <-. apply all_some_Forall2 in E. eauto.
  - intros (rs & F & ->). rewrite (proj2 (all_some_Forall2 _ _ _) F). reflexivity.
Qed.

Lemma subst_row_single : forall env s x, subst_row env s [x] = subst_ty env s x.
Proof.
  intros env s x. unfold subst_row. cbn. destruct (subst_ty env s x); cbn; [|reflexivity].
  rewrite app_nil_r. reflexivity.
Qed.

Lemma subst_row_app : forall env s x y r,
  subst_row env s (x ++ y) = Some r ->
  exists r1 r2, subst_row env s x = Some r1 /\ subst_row env s y = Some r2 /\ r = r1 ++ r2.
Proof.
  intros env s x y r H. apply subst_row_iff in H. destruct H as (rs & F & ->).
  apply Forall2_app_inv_l in F. destruct F as (r1 & r2 & F1 & F2 & ->).
  exists (concat r1), (concat r2). rewrite concat_app. split; [|split; [|reflexivity]]; apply subst_row_iff; eauto.
Qed.

Lemma subst_row_concat : forall env s xs r, subst_row env s (concat xs) = Some r ->
  exists rs, Forall2 (fun a b => subst_row env s a = Some b) xs rs /\ r = concat rs.
Proof.
  intros env s xs. induction xs as [|x xs IH]; intros r H; cbn [concat] in H.
  - injection H as <-. exists []. split; [constructor|reflexivity].
  - apply subst_row_app in H. destruct H as (r1 & r2 & E1 & E2 & ->).
    destruct (IH _ E2) as (rs & F & ->). exists (r1 :: rs). split; [constructor; auto|reflexivity].
Qed.

Lemma flat_map_concat : forall {A B} (f : A -> list B) l, flat_map f l = concat (map f l).
Proof. intros A B f l. induction l; cbn; congruence. Qed.

Section Compose.
  Variable env : N -> N -> option typedef.
  Variables (decls s1 s2 s12 : list term).
  Hypothesis fit : check_terms s1 decls = true.
  Hypothesis plain1 : Forall (fun t => plain_term true t = true) s1.
  Hypothesis plain2 : Forall (fun t => plain_term true t = true) s2.
  Hypothesis staged : Forall2 (fun a b => subst_term env s2 a = Some b) s1 s12.

  Lemma staged_nth : forall i a, nth_error s1 i = Some a ->
    exists b, nth_error s12 i = Some b /\ subst_term env s2 a = Some b.
  Proof. intros i a E. exact (Forall2_nth_l _ _ _ _ _ staged E). Qed.

  (** Elements that are types go to types or to arguments of the second stage. *)
  Lemma stage2_concat : forall l l', Forall (fun t => is_type t = true) l ->
    Forall2 (fun a b => subst_term env s2 a = Some b) l l' -> Forall not_concat l'.
  Proof.
    intros l l' T F. apply Forall_forall. intros e' I'.
    destruct (Forall2_In_r _ _ _ _ F I') as (e & J & E). rewrite Forall_forall in T.
    destruct (is_type_plain _ (T e J)) as [(x & ->)|(i & b & ->)].
    - apply subst_type_inv in E. destruct E as (y & -> & _). constructor.
    - rewrite subst_mvar_eq in E. apply plain_not_concat. rewrite Forall_forall in plain2.
      apply plain2. eapply nth_error_In. exact E.
  Qed.

  Lemma stage2_types : forall l l', Forall (fun t => is_type t = true) l ->
    Forall2 (fun a b => subst_term env s2 a = Some b) l l' ->
    subst_term env s2 (MList l) = Some (MList (flat_map expand l')).
  Proof.
    intros l l' T F. rewrite subst_list_eq, (proj2 (all_some_Forall2 _ _ _) F). cbn [option_map]. f_equal.
    pose proof (stage2_concat _ _ T F) as NC. destruct l as [|e l].
    - inversion F. subst. reflexivity.
    - inversion T. subst. replace (is_type e) with true by congruence. apply from_parts_true. exact NC.
  Qed.

  Lemma list_inv : forall s l a, subst_term env s (MList l) = Some a ->
    exists l', Forall2 (fun a b => subst_term env s a = Some b) l l'.
  Proof.
    intros s l a E. rewrite subst_list_eq in E.
    destruct (all_some (map (subst_term env s) l)) as [l'|] eqn:El; [|discriminate].
    exists l'. apply all_some_Forall2. exact El.
  Qed.

  Lemma rowvar_stage : forall es es' tys l2, Forall (fun t => is_type t = true) es ->
    Forall2 (fun a b => subst_term env s2 a = Some b) es es' ->
    Forall2 (fun a b => rowvar_elem a = Some b) es tys ->
    subst_row env s2 tys = Some l2 ->
    Forall2 (fun a b => rowvar_elem a = Some b) (flat_map expand es') l2.
  Proof.
    intros es es' tys l2 T F. revert tys l2. induction F as [|e e' es es' E F IH]; intros tys l2 G R.
    - inversion G. subst. injection R as <-. constructor.
    - inversion G as [|? t ? tys' Et G']. subst. inversion T. subst.
      change (t :: tys') with ([t] ++ tys') in R. apply subst_row_app in R.
      destruct R as (r1 & r2 & R1 & R2 & ->). rewrite subst_row_single in R1.
      cbn [flat_map]. apply Forall2_app; [|eapply IH; eauto].
      destruct (is_type_plain _ H1) as [(x & ->)|(i & b & ->)]; cbn in Et; injection Et as <-.
      + apply subst_type_inv in E. destruct E as (y & -> & E). rewrite R1 in E. injection E as ->.
        cbn. constructor; [reflexivity|constructor].
      + autorewrite with substs in E, R1. unfold apply_rowvar in R1. rewrite E in R1.
        destruct e'; try discriminate.
        * destruct t; try discriminate. injection R1 as <-. cbn. constructor; [reflexivity|constructor].
        * apply all_some_Forall2 in R1. exact R1.
  Qed.

  Lemma compose_both :
    (forall t, valid_ty env decls t = true -> plain_ty true t = true ->
       forall l1 l2, subst_ty env s1 t = Some l1 -> subst_row env s2 l1 = Some l2 ->
       subst_ty env s12 t = Some l2) /\
    (forall t, valid_term env decls t = true -> plain_term true t = true ->
       forall t1 t2, subst_term env s1 t = Some t1 -> subst_term env s2 t1 = Some t2 ->
       subst_term env s12 t = Some t2).
  Proof.
    assert (ROW : forall x, Forall (fun t => valid_ty env decls t = true -> plain_ty true t = true ->
                     forall l1 l2, subst_ty env s1 t = Some l1 -> subst_row env s2 l1 = Some l2 ->
                     subst_ty env s12 t = Some l2) x ->
                   Forall (fun t => valid_ty env decls t = true) x ->
                   Forall (fun t => plain_ty true t = true) x ->
                   forall x1 x2, subst_row env s1 x = Some x1 -> subst_row env s2 x1 = Some x2 ->
                   subst_row env s12 x = Some x2).
    { intros x F V P x1 x2 E1 E2. apply subst_row_iff in E1. destruct E1 as (rs & F1 & ->).
      apply subst_row_concat in E2. destruct E2 as (rs2 & F2 & ->). apply subst_row_iff. exists rs2.
      split; [|reflexivity]. revert rs2 F2. induction F1 as [|a b x rs Ea F1 IH]; intros rs2 F2.
      - inversion F2. constructor.
      - inversion F2. inversion F. inversion V. inversion P. subst. constructor; [|auto].
        match goal with H : _ -> _ -> forall l1 l2, _ |- _ => eapply H; eassumption end. }
    apply both_ind; try (intros; discriminate);
      try (intros;
           repeat match goal with H : _ = Some _ |- _ => injection H as <- end; reflexivity).
    - intros e i ar b F V P l1 l2 E1 E2. autorewrite with substs valids in *.
      cbn [plain_ty] in P. rewrite forallb_Forall_iff in P. apply andb_true_iff in V. destruct V as [V _].
      rewrite forallb_Forall_iff in V.
      destruct (all_some (map (subst_term env s1) ar)) as [ar1|] eqn:Ea1; [|discriminate].
      destruct (env e i) as [d|] eqn:Ed; [|discriminate].
      destruct (def_bound d ar1) as [b1|]; [|discriminate]. injection E1 as <-.
      rewrite subst_row_single in E2. autorewrite with substs in E2. rewrite Ed in E2.
      destruct (all_some (map (subst_term env s2) ar1)) as [ar2|] eqn:Ea2; [|discriminate].
      assert (E12 : all_some (map (subst_term env s12) ar) = Some ar2).
      { apply all_some_Forall2. apply all_some_Forall2 in Ea1, Ea2.
        clear E2. revert ar2 Ea2. induction Ea1 as [|a a1 ar ar1 Ea Ea1 IH]; intros ar2 Ea2.
        - inversion Ea2. constructor.
        - inversion Ea2. inversion F. inversion V. inversion P. subst. constructor; [|auto].
          match goal with H : _ -> _ -> forall t1 t2, _ |- _ => eapply H; eassumption end. }
      rewrite E12. exact E2.
    - intros x y Fx Fy V P l1 l2 E1 E2. autorewrite with substs valids in *. cbn [plain_ty] in P.
      rewrite andb_true_iff, !forallb_Forall_iff in V, P. destruct V as [V1 V2], P as [P1 P2].
      specialize (ROW) as ROWx.
      pose proof (ROW x Fx V1 P1) as Rx. pose proof (ROW y Fy V2 P2) as Ry. unfold subst_row in Rx, Ry.
      destruct (all_some (map (subst_ty env s1) x)) as [x1|]; [|discriminate].
      destruct (all_some (map (subst_ty env s1) y)) as [y1|]; [|discriminate].
      injection E1 as <-. rewrite subst_row_single in E2. autorewrite with substs in E2.
      cbn [option_map] in Rx, Ry.
      destruct (all_some (map (subst_ty env s2) (concat x1))) as [x2|] eqn:Ex; [|discriminate].
      destruct (all_some (map (subst_ty env s2) (concat y1))) as [y2|] eqn:Ey; [|discriminate].
      specialize (Rx (concat x1) (concat x2) eq_refl). rewrite Ex in Rx. specialize (Rx eq_refl).
      specialize (Ry (concat y1) (concat y2) eq_refl). rewrite Ey in Ry. specialize (Ry eq_refl).
      destruct (all_some (map (subst_ty env s12) x)) as [x12|]; [|discriminate].
      destruct (all_some (map (subst_ty env s12) y)) as [y12|]; [|discriminate].
      cbn [option_map] in Rx, Ry. congruence.
    - intros i b V _ l1 l2 E1 E2. autorewrite with substs in *.
      destruct (nth_error s1 i) as [[]|] eqn:E; try discriminate. injection E1 as <-.
      rewrite subst_row_single in E2. destruct (staged_nth _ _ E) as (c & Ec & Es). rewrite Ec.
      apply subst_type_inv in Es. destruct Es as (y & -> & Es). congruence.
    - intros i b V _ l1 l2 E1 E2. autorewrite with substs valids in *. apply check_decl_iff in V.
      destruct (arg_nth _ _ fit plain1 _ _ V) as (a & Ea & C & Pa). unfold apply_rowvar in *. rewrite Ea in E1.
      destruct (row_arg _ _ Pa C) as [(es & -> & T)|(j & b' & -> & _)]; [|discriminate].
      apply all_some_Forall2 in E1. destruct (staged_nth _ _ Ea) as (c & Ec & Es). rewrite Ec.
      destruct (list_inv _ _ _ Es) as (es' & Fe). rewrite (stage2_types _ _ T Fe) in Es. injection Es as <-.
      apply all_some_Forall2. eapply rowvar_stage; eassumption.
    - intros rows b F V P l1 l2 E1 E2. autorewrite with substs valids in *. cbn [plain_ty] in P.
      rewrite forallb2_Forall in V, P.
      destruct (all_some (map (subst_row env s1) rows)) as [rows1|] eqn:Er; [|discriminate].
      injection E1 as <-. rewrite subst_row_single in E2. unfold new_sum in E2. autorewrite with substs in E2.
      destruct (all_some (map (subst_row env s2) rows1)) as [rows2|] eqn:Er2; [|discriminate].
      assert (E12 : all_some (map (subst_row env s12) rows) = Some rows2).
      { apply all_some_Forall2. apply all_some_Forall2 in Er, Er2. clear E2. revert rows2 Er2.
        induction Er as [|r r1 rows rows1 Ea Er IH]; intros rows2 Er2.
        - inversion Er2. constructor.
        - inversion Er2. inversion F. inversion V. inversion P. subst. constructor; [|auto].
          eapply ROW; eassumption. }
      rewrite E12. exact E2.
    - intros x IH V P t1 t2 E1 E2. autorewrite with substs valids in *.
      destruct (subst_term env s1 x) as [x1|]; [|discriminate]. injection E1 as <-. autorewrite with substs in E2.
      destruct (subst_term env s2 x1) as [x2|] eqn:Ex; [|discriminate]. cbn [option_map] in E2.
      rewrite (IH V P _ _ eq_refl Ex). exact E2.
    - intros x IH V P t1 t2 E1 E2. autorewrite with substs valids in *. cbn [plain_term] in P.
      apply andb_true_iff in P. destruct P as [_ P].
      destruct (subst_ty env s1 x) as [[|y []]|]; try discriminate. injection E1 as <-. autorewrite with substs in E2.
      destruct (subst_ty env s2 y) as [[|z []]|] eqn:Ey; try discriminate.
      rewrite (IH V P _ [z] eq_refl); [exact E2|]. rewrite subst_row_single. exact Ey.
    - intros x IH V P t1 t2 E1 E2. autorewrite with substs valids in *. cbn [plain_term] in P.
      apply andb_true_iff in P. destruct P as [_ P].
      destruct (subst_ty env s1 x) as [[|y []]|]; try discriminate. injection E1 as <-. autorewrite with substs in E2.
      destruct (subst_ty env s2 y) as [[|z []]|] eqn:Ey; try discriminate.
      rewrite (IH V P _ [z] eq_refl); [exact E2|]. rewrite subst_row_single. exact Ey.
    - intros l F V P t1 t2 E1 E2. apply plain_list in P. destruct P as [P H].
      autorewrite with valids in V. rewrite forallb_Forall_iff in V.
      destruct (list_inv _ _ _ E1) as (l1 & F1). destruct H as [T|T].
      + pose proof (subst_types env _ _ fit plain1 _ _ T V F1) as X. rewrite X in E1. injection E1 as <-.
        pose proof (expand_types env _ _ fit plain1 _ _ T V F1) as T1.
        destruct (list_inv _ _ _ E2) as (m & Fm). rewrite (stage2_types _ _ T1 Fm) in E2. injection E2 as <-.
        assert (G : exists l12, Forall2 (fun a b => subst_term env s12 a = Some b) l l12 /\
                                Forall not_concat l12 /\ flat_map expand l12 = flat_map expand m).
        { clear X T1. revert m Fm. induction F1 as [|e e1 l l1 Ee F1 IH]; intros m Fm.
          - inversion Fm. subst. exists []. auto.
          - cbn [flat_map] in Fm. apply Forall2_app_inv_l in Fm. destruct Fm as (m1 & m2 & Fm1 & Fm2 & ->).
            inversion F as [|? ? Hf Ff]. inversion V as [|? ? Hv Fv]. inversion P as [|? ? Hp Fp].
            inversion T as [|? ? Ht Ft]. subst.
            destruct (IH Ff Fv Fp Ft m2 Fm2) as (l12 & G1 & G2 & G3).
            destruct (type_elem env _ _ fit plain1 _ _ Ht Hv Ee) as
              [(x & y & -> & -> & Es)|[(i & b & es & -> & -> & Te & Ei & _)|(i & b & j & b' & -> & -> & Ei & _)]];
              cbn [expand] in Fm1.
            + inversion Fm1 as [|? z ? ? Ez Fz]. subst. inversion Fz. subst.
              exists (z :: l12). split; [constructor; [|exact G1]|split].
              * eapply Hf; eassumption.
              * apply subst_type_inv in Ez. destruct Ez as (z' & -> & _). constructor; [constructor|exact G2].
              * cbn [flat_map app]. rewrite G3. reflexivity.
            + destruct (staged_nth _ _ Ei) as (c & Ec & Es). rewrite (stage2_types _ _ Te Fm1) in Es. injection Es as <-.
              exists (MList (flat_map expand m1) :: l12). split; [constructor; [|exact G1]|split].
              * rewrite subst_mvar_eq. exact Ec.
              * constructor; [constructor|exact G2].
              * cbn [flat_map expand]. rewrite flat_map_app, G3. reflexivity.
            + inversion Fm1 as [|? z ? ? Ez Fz]. subst. inversion Fz. subst.
              destruct (staged_nth _ _ Ei) as (c & Ec & Es). rewrite Ez in Es. injection Es as <-.
              exists (z :: l12). split; [constructor; [|exact G1]|split].
              * rewrite subst_mvar_eq. exact Ec.
              * constructor; [|exact G2]. rewrite subst_mvar_eq in Ez. apply plain_not_concat.
                rewrite Forall_forall in plain2. apply plain2. eapply nth_error_In. exact Ez.
              * cbn [flat_map app]. rewrite G3. reflexivity. }
        destruct G as (l12 & G1 & G2 & G3). rewrite <- G3.
        rewrite subst_list_eq, (proj2 (all_some_Forall2 _ _ _) G1). cbn [option_map]. f_equal.
        destruct l as [|e l].
        * inversion G1. subst. reflexivity.
        * inversion T. subst. replace (is_type e) with true by congruence. apply from_parts_true. exact G2.
      + rewrite (subst_others env _ _ _ T F1) in E1. injection E1 as <-.
        assert (T1 : Forall (fun t => is_type t = false) l1).
        { apply Forall_forall. intros e1 I1. destruct (Forall2_In_r _ _ _ _ F1 I1) as (e & Je & Ee).
          rewrite Forall_forall in T, P, V. eapply (other_elem env decls s1); eauto. }
        destruct (list_inv _ _ _ E2) as (l2 & F2). rewrite (subst_others env _ _ _ T1 F2) in E2. injection E2 as <-.
        apply subst_others; [exact T|]. clear T T1. revert l2 F2.
        induction F1 as [|a a1 ar ar1 Ea Ea1 IH]; intros l2 F2.
        * inversion F2. constructor.
        * inversion F2. inversion F. inversion V. inversion P. subst. constructor; [|auto].
          match goal with H : _ -> _ -> forall t1 t2, _ |- _ => eapply H; eassumption end.
    - intros l F V P t1 t2 E1 E2. autorewrite with valids substs in *. cbn [plain_term] in P.
      rewrite forallb_Forall_iff in V, P.
      destruct (all_some (map (subst_term env s1) l)) as [ar1|] eqn:Ea1; [|discriminate]. injection E1 as <-.
      autorewrite with substs in E2.
      destruct (all_some (map (subst_term env s2) ar1)) as [ar2|] eqn:Ea2; [|discriminate].
      assert (E12 : all_some (map (subst_term env s12) l) = Some ar2).
      { apply all_some_Forall2. apply all_some_Forall2 in Ea1, Ea2.
        clear E2. revert ar2 Ea2. induction Ea1 as [|a a1 ar ar1 Ea Ea1 IH]; intros ar2 Ea2.
        - inversion Ea2. constructor.
        - inversion Ea2. inversion F. inversion V. inversion P. subst. constructor; [|auto].
          match goal with H : _ -> _ -> forall t1 t2, _ |- _ => eapply H; eassumption end. }
      rewrite E12. exact E2.
    - intros i d _ V P t1 t2 E1 E2. autorewrite with substs in *.
      destruct (staged_nth _ _ E1) as (c & Ec & Es). congruence.
  Qed.
End Compose.

(** ** Substituting every variable for itself *)
Lemma identity_nth : forall decls i k, nth_error decls i = Some k ->
  nth_error (identity_args decls) i = Some (new_var_use i k).
Proof.
  intros decls i k E. unfold identity_args.
  assert (G : forall d n i k, nth_error d i = Some k ->
              nth_error (map (fun p => new_var_use (fst p) (snd p)) (combine (seq n (length d)) d)) i =
              Some (new_var_use (n + i) k)).
  { induction d as [|x d IH]; intros n [|j] k' E'; cbn in E' |- *; try discriminate.
    - injection E' as <-. rewrite Nat.add_0_r. reflexivity.
    - rewrite (IH (S n) j k' E'). f_equal. f_equal. lia. }
  exact (G decls 0 i k E).
Qed.

Section Identity.
  Variable env : N -> N -> option typedef.
  Variable decls : list term.

  Lemma identity_both :
    (forall t, valid_ty env decls t = true -> cached_ty t -> plain_ty false t = true ->
       subst_ty env (identity_args decls) t = Some [t]) /\
    (forall t, valid_term env decls t = true -> cached_term t -> plain_term false t = true ->
       subst_term env (identity_args decls) t = Some t).
  Proof.
    set (ids := identity_args decls).
    assert (SELF : forall l, Forall2 (fun a b => subst_term env ids a = Some b) l l ->
                   all_some (map (subst_term env ids) l) = Some l) by (intros; apply all_some_Forall2; auto).
    assert (LIST : forall l, Forall (fun t => valid_term env decls t = true -> cached_term t -> plain_term false t = true ->
                     subst_term env ids t = Some t) l ->
                   Forall (fun t => valid_term env decls t = true) l -> Forall cached_term l ->
                   Forall (fun t => plain_term false t = true) l ->
                   all_some (map (subst_term env ids) l) = Some l).
    { intros l F V Ca P. apply SELF. induction l; constructor; inversion F; inversion V; inversion Ca; inversion P; subst; auto. }
    assert (ROW : forall x, Forall (fun t => valid_ty env decls t = true -> cached_ty t -> plain_ty false t = true ->
                     subst_ty env ids t = Some [t]) x ->
                   Forall (fun t => valid_ty env decls t = true) x -> Forall cached_ty x ->
                   Forall (fun t => plain_ty false t = true) x ->
                   all_some (map (subst_ty env ids) x) = Some (map (fun t => [t]) x)).
    { intros l F V Ca P. apply all_some_Forall2.
      induction l; constructor; inversion F; inversion V; inversion Ca; inversion P; subst; auto. }
    assert (CONC : forall x : list ty, concat (map (fun t => [t]) x) = x) by (induction x; cbn; congruence).
    apply both_ind; try (intros; discriminate); try (intros; reflexivity).
    - intros e i ar b F V Ca P. autorewrite with substs valids in *. cbn [plain_ty cached_ty] in *.
      rewrite fold_and in Ca. rewrite forallb_Forall_iff in P. apply andb_true_iff in V. destruct V as [V1 V2].
      rewrite forallb_Forall_iff in V1. rewrite (LIST _ F V1 Ca P).
      destruct (env e i) as [d|]; [|discriminate]. apply andb_true_iff in V2. destruct V2 as [_ V2].
      destruct (def_bound d ar) as [b'|]; [|discriminate]. apply beqb_eq in V2. subst. reflexivity.
    - intros x y Fx Fy V Ca P. autorewrite with substs valids in *. cbn [plain_ty cached_ty] in *.
      rewrite !fold_and in Ca. rewrite andb_true_iff, !forallb_Forall_iff in V, P.
      destruct V as [V1 V2], P as [P1 P2], Ca as [C1 C2].
      rewrite (ROW _ Fx V1 C1 P1), (ROW _ Fy V2 C2 P2), !CONC. reflexivity.
    - intros i b V _ _. autorewrite with substs valids in *. apply check_decl_iff in V.
      unfold ids. rewrite (identity_nth _ _ _ V). reflexivity.
    - intros rows b F V Ca P. autorewrite with substs valids in *. cbn [plain_ty cached_ty] in *.
      rewrite forallb2_Forall in V, P. destruct Ca as [Ca Cb]. rewrite fold_and in Ca.
      assert (E : all_some (map (subst_row env ids) rows) = Some rows).
      { apply all_some_Forall2. clear Cb. induction rows as [|r rows IH]; constructor;
          inversion F; inversion V; inversion Ca; inversion P; subst; auto.
        unfold subst_row. rewrite ROW; auto; [|apply fold_and; assumption]. cbn [option_map]. rewrite CONC. reflexivity. }
      rewrite E. f_equal. f_equal. unfold new_sum. f_equal.
      pose proof (new_sum_bound rows) as NB. cbn [new_sum lub] in NB.
      destruct (lub_of (map lub (concat rows))), b; auto; exfalso.
      + assert (X : Linear = Copyable) by (apply Cb, NB; reflexivity). discriminate.
      + assert (X : Linear = Copyable) by (apply NB, Cb; reflexivity). discriminate.
    - intros x IH V Ca P. autorewrite with substs valids in *. rewrite (IH V Ca P). reflexivity.
    - intros x IH V Ca P. autorewrite with substs valids in *. cbn [plain_term cached_term] in *.
      apply andb_true_iff in P. destruct P as [_ P]. rewrite (IH V Ca P). reflexivity.
    - intros x IH V Ca P. autorewrite with substs valids in *. cbn [plain_term cached_term] in *.
      apply andb_true_iff in P. destruct P as [_ P]. rewrite (IH V Ca P). reflexivity.
    - intros l F V Ca P. autorewrite with valids in V. cbn [cached_term] in Ca. rewrite fold_and in Ca.
      rewrite forallb_Forall_iff in V. apply plain_list in P. destruct P as [P H].
      rewrite subst_list_eq, (LIST _ F V Ca P). cbn [option_map]. f_equal. destruct H as [T|T].
      + rewrite (map_ext_in _ Item).
        * apply list_from_items.
        * intros e I. rewrite Forall_forall in T. destruct (is_type_plain _ (T e I)) as [(x & ->)|(i & b & ->)]; reflexivity.
      + replace (match l with [] => false | e :: _ => is_type e end) with false.
        * apply from_parts_false.
        * destruct l; [reflexivity|]. inversion T. congruence.
    - intros l F V Ca P. autorewrite with valids substs in *. cbn [cached_term plain_term] in *.
      rewrite fold_and in Ca. rewrite forallb_Forall_iff in V, P. rewrite (LIST _ F V Ca P). reflexivity.
    - intros i d _ V _ P. autorewrite with valids substs in *. cbn [plain_term] in P.
      unfold ids. destruct d; try discriminate; apply check_decl_iff in V; rewrite (identity_nth _ _ _ V); reflexivity.
  Qed.
End Identity.
