From Coq Require Import List Bool NArith Relations.
From Verif Require Import TagModel TagSpec.
Import ListNotations.

Definition all_tags : list tag :=
  [TAny; TNone; TModuleOp; TModuleRoot; TFunction; TAlias; TConst; TFuncDefn;
   TControlFlowChild; TDataflowChild; TDataflowParent; TDfg; TCfg; TInput; TOutput; TStaticInput;
   TStaticOutput; TFnCall; TLoadConst; TLoadFunc; TScopedDefn; TTailLoop; TConditional; TCase; TLeaf;
   TDataflowBlock; TBasicBlockExit].

Lemma all_tags_complete t : In t all_tags.
Proof. destruct t; cbn; tauto. Qed.

Lemma tag_eqb_eq a b : tag_eqb a b = true <-> a = b.
Proof. split; [destruct a, b; (reflexivity || discriminate)|intros ->; destruct b; reflexivity]. Qed.

Lemma lift1 (f : tag -> bool) : forallb f all_tags = true -> forall a, f a = true.
Proof. intros H a. exact (proj1 (forallb_forall _ _) H a (all_tags_complete a)). Qed.

Lemma lift2 (f : tag -> tag -> bool) :
  forallb (fun a => forallb (f a) all_tags) all_tags = true -> forall a b, f a b = true.
Proof. intros H a b. exact (lift1 _ (lift1 _ H a) b). Qed.

Lemma lift3 (f : tag -> tag -> tag -> bool) :
  forallb (fun a => forallb (fun b => forallb (f a b) all_tags) all_tags) all_tags = true ->
  forall a b c, f a b c = true.
Proof. intros H a b c. exact (lift1 _ (lift2 _ H a b) c). Qed.

Lemma superset_total a b : exists r, is_superset a b = Some r.
Proof.
  assert (H : forall a b, (match is_superset a b with Some _ => true | None => false end) = true)
    by (apply lift2; vm_compute; reflexivity).
  specialize (H a b). destruct (is_superset a b); [eauto|discriminate].
Qed.

(** Boolean view. *)
Definition sup (a b : tag) : bool := match is_superset a b with Some true => true | _ => false end.
Lemma sup_iff a b : is_superset a b = Some true <-> sup a b = true.
Proof. unfold sup. destruct (is_superset a b) as [[]|]; split; congruence. Qed.

Lemma sup_refl a : sup a a = true.
Proof. revert a. apply lift1. vm_compute. reflexivity. Qed.

Lemma sup_trans a b c : sup a b = true -> sup b c = true -> sup a c = true.
Proof.
  assert (H : forall a b c, implb (sup a b && sup b c) (sup a c) = true)
    by (apply lift3; vm_compute; reflexivity).
  intros H1 H2. specialize (H a b c). rewrite H1, H2 in H. exact H.
Qed.

Lemma sup_antisym a b : sup a b = true -> sup b a = true -> a = b.
Proof.
  assert (H : forall a b, implb (sup a b && sup b a) (tag_eqb a b) = true)
    by (apply lift2; vm_compute; reflexivity).
  intros H1 H2. specialize (H a b). rewrite H1, H2 in H. apply tag_eqb_eq. exact H.
Qed.

Lemma declared_sup a b : declared a b -> sup b a = true.
Proof.
  assert (H : forall a, forallb (fun p => sup p a) (immediate_supersets a) = true)
    by (apply lift1; vm_compute; reflexivity).
  intros Hd. exact (proj1 (forallb_forall _ _) (H a) b Hd).
Qed.

Lemma fuel_sound n a b : is_superset_fuel n a b = Some true -> below b a.
Proof.
  revert b; induction n as [|n IH]; intros b; [discriminate|]. cbn.
  destruct (tag_eqb a b) eqn:E; [apply tag_eqb_eq in E; subst; intros _; apply rt_refl|].
  assert (G : forall l, (forall p, In p l -> declared b p) ->
     (fix any (ps : list tag) : option bool :=
              match ps with
              | [] => Some false
              | p :: ps' =>
                  match is_superset_fuel n a p with
                  | Some true => Some true
                  | Some false => any ps'
                  | None => None
                  end
              end) l = Some true -> below b a).
  { induction l as [|p l IHl]; intros Hl; [discriminate|].
    destruct (is_superset_fuel n a p) as [[]|] eqn:Ep; [| |discriminate].
    - intros _. eapply rt_trans; [apply rt_step, Hl; left; reflexivity|]. apply IH; assumption.
    - apply IHl. intros q Hq. apply Hl. right; assumption. }
  apply G. intros p Hp; exact Hp.
Qed.

Lemma superset_iff_below a b : is_superset a b = Some true <-> below b a.
Proof.
  split; [apply fuel_sound|]. intros H. apply sup_iff.
  induction H as [x y H|x|x y z _ IH1 _ IH2].
  - apply declared_sup; assumption.
  - apply sup_refl.
  - eapply sup_trans; eassumption.
Qed.

Lemma superset_order :
  (forall a, is_superset a a = Some true) /\
  (forall a b c, is_superset a b = Some true -> is_superset b c = Some true -> is_superset a c = Some true) /\
  (forall a b, is_superset a b = Some true -> is_superset b a = Some true -> a = b).
Proof.
  repeat split; intros.
  - apply sup_iff, sup_refl.
  - apply sup_iff. rewrite sup_iff in *. eapply sup_trans; eassumption.
  - rewrite sup_iff in *. apply sup_antisym; assumption.
Qed.

Lemma any_greatest a : is_superset TAny a = Some true.
Proof. apply sup_iff. revert a. apply lift1. vm_compute. reflexivity. Qed.

Lemma none_minimal a : is_superset TNone a = Some true -> a = TNone.
Proof.
  assert (H : forall a, implb (sup TNone a) (tag_eqb a TNone) = true) by (apply lift1; vm_compute; reflexivity).
  rewrite sup_iff. intros Hs. specialize (H a). rewrite Hs in H. apply tag_eqb_eq. exact H.
Qed.

Lemma none_only_below a : is_superset a TNone = Some true <-> a = TNone \/ a = TAny.
Proof.
  assert (H : forall a, Bool.eqb (sup a TNone) (tag_eqb a TNone || tag_eqb a TAny) = true)
    by (apply lift1; vm_compute; reflexivity).
  rewrite sup_iff. specialize (H a). apply eqb_prop in H. rewrite H, orb_true_iff, !tag_eqb_eq. tauto.
Qed.

Lemma cmp_consistent a b :
  (tag_partial_cmp a b = Some (Some Eq) <-> a = b) /\
  (tag_partial_cmp a b = Some (Some Gt) <-> below b a /\ a <> b) /\
  (tag_partial_cmp a b = Some (Some Lt) <-> below a b /\ a <> b) /\
  (tag_partial_cmp a b = Some None <-> ~ below a b /\ ~ below b a).
Proof.
  pose proof (superset_iff_below a b) as Hab. pose proof (superset_iff_below b a) as Hba.
  pose proof (tag_eqb_eq a b) as Heq. pose proof superset_order as (Hr & _ & Hanti).
  unfold tag_partial_cmp. destruct (tag_eqb a b) eqn:E.
  - apply tag_eqb_eq in E; subst. assert (below b b) by apply rt_refl.
    repeat split; intros; try congruence; intuition congruence.
  - assert (Hn : a <> b) by (intros Hx; apply Heq in Hx; congruence).
    destruct (superset_total a b) as [r1 E1]. destruct (superset_total b a) as [r2 E2].
    rewrite E1, E2 in *. specialize (Hanti a b). rewrite E1, E2 in Hanti.
    destruct r1, r2; try (exfalso; apply Hn, Hanti; reflexivity);
      repeat split; intros; try congruence; intuition congruence.
Qed.

Lemma covers_refuted : declared TCase TAny /\ ~ covers TAny TCase.
Proof.
  split; [cbn; auto|]. intros (_ & _ & H). apply H. exists TDataflowParent.
  split; [apply rt_step; cbn; auto|]. split; [apply rt_step; cbn; auto|]. split; discriminate.
Qed.

(** That is the only redundant declaration. *)
Lemma declared_covers a b : declared a b -> (a, b) <> (TCase, TAny) -> covers b a.
Proof.
  intros Hd Hne. split; [apply rt_step; assumption|]. split.
  - assert (H : forall a, forallb (fun p => negb (tag_eqb p a)) (immediate_supersets a) = true)
      by (apply lift1; vm_compute; reflexivity).
    pose proof (proj1 (forallb_forall _ _) (H a) b Hd) as Hx. cbn beta in Hx.
    apply negb_true_iff in Hx. intros ->. rewrite (proj2 (tag_eqb_eq a a) eq_refl) in Hx. discriminate.
  - intros (q & H1 & H2 & Hqa & Hqb).
    apply superset_iff_below in H1, H2. rewrite sup_iff in H1, H2.
    assert (H : forall a q, forallb (fun b => negb (sup q a && sup b q) || tag_eqb q a || tag_eqb q b
                     || (tag_eqb a TCase && tag_eqb b TAny)) (immediate_supersets a) = true)
      by (apply lift2; vm_compute; reflexivity).
    pose proof (proj1 (forallb_forall _ _) (H a q) b Hd) as Hx. cbn beta in Hx.
    rewrite H1, H2 in Hx. cbn [andb negb orb] in Hx.
    rewrite !orb_true_iff, andb_true_iff, !tag_eqb_eq in Hx. destruct Hx as [[->| ->]|[-> ->]]; congruence.
Qed.
