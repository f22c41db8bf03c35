(** Theorems about operations: ports (C43), substitution (C44), new graphs (C45). *)
From Coq Require Import List Bool NArith Arith Lia.
From Verif Require Import TagModel TypesModel TypesSpec TypesProofs TypesSubst GraphModel GraphSpec GraphProofs GraphRemove OpModel OpSpec OpProofs SeqProofs.
Import ListNotations.

(** ** C43 *)
Theorem op_port_layout : forall o d l, ports o d l ->
  port_count o d = length l /\ (forall i, i < length l -> port_kind o d i = nth_error l i).
Proof.
  intros o d l P. pose proof (layout_ports o d l P) as E. rewrite <- E, layout_length. split; [reflexivity|].
  intros i L. now apply layout_kind.
Qed.
Print Assumptions op_port_layout.

(** Every operation has a layout, except a [Tag] with a tag that is out of range. *)
Theorem op_ports_total : forall o d, tag_in_range o = true -> exists l, ports o d l.
Proof. exact ports_exists. Qed.
Print Assumptions op_ports_total.

Lemma value_not_static : forall r i k, nth_error (values r) i = Some k -> k_static k = false /\ k_order k = false /\ k_control k = false.
Proof.
  intros r i k E. unfold values in E. rewrite nth_error_map in E. destruct (nth_error r i); [|discriminate].
  injection E as <-. auto.
Qed.

(** The static port is the only port of a static kind. *)
Theorem op_static_port : forall o d l, ports o d l -> forall i,
  static_port o d = Some i <-> exists k, nth_error l i = Some k /\ k_static k = true.
Proof.
  intros o d l P i. rewrite <- (layout_ports o d l P). unfold layout, static_port. rewrite nth_values. fold (value_port_count o d).
  assert (S : forall k, static_port_kind o d = Some k -> k_static k = true).
  { intros k E. destruct d, o; try discriminate; now injection E as <-. }
  assert (Ot : forall k, other_port_kind o d = Some k -> k_static k = false).
  { intros k E. destruct d, o; try discriminate; cbn in E; now injection E as <-. }
  split.
  - destruct (static_port_kind o d) as [k|]; [|discriminate]. intros E. injection E as <-. rewrite Nat.ltb_irrefl, Nat.sub_diag.
    exists k. split; [reflexivity|auto].
  - intros (k & E & Sk). destruct (Nat.ltb_spec i (value_port_count o d)) as [L|L].
    + destruct (nth_error (side d (sig_of o)) i); [|discriminate]. injection E as <-. discriminate.
    + destruct (static_port_kind o d) as [k'|].
      * destruct (i - value_port_count o d) as [|j] eqn:Ej; [f_equal; lia|]. cbn [app nth_error] in E. exfalso.
        destruct (other_port_kind o d) as [k2|]; [|destruct j; discriminate]. apply nth_error_In, repeat_spec in E. subst.
        now rewrite (Ot k2 eq_refl) in Sk.
      * exfalso. cbn [app] in E. destruct (other_port_kind o d) as [k2|]; [|destruct (i - value_port_count o d); discriminate].
        apply nth_error_In, repeat_spec in E. subst. now rewrite (Ot k2 eq_refl) in Sk.
Qed.
Print Assumptions op_static_port.

(** [other_port] is the first port of a kind that is neither a value nor static. *)
Theorem op_other_port : forall o d l, ports o d l -> forall i,
  other_port o d = Some i <->
  (exists k, nth_error l i = Some k /\ k_value k = false /\ k_static k = false) /\
  (forall j k, j < i -> nth_error l j = Some k -> k_value k = true \/ k_static k = true).
Proof.
  intros o d l P i. rewrite <- (layout_ports o d l P).
  assert (S : forall k, static_port_kind o d = Some k -> k_static k = true).
  { intros k E. destruct d, o; try discriminate; now injection E as <-. }
  assert (Ot : forall k, other_port_kind o d = Some k -> k_static k = false /\ k_value k = false).
  { intros k E. destruct d, o; try discriminate; cbn in E; now injection E as <-. }
  set (st := Nat.b2n (is_some (static_port_kind o d))).
  assert (Hs : other_port o d = if is_some (other_port_kind o d) && Nat.leb 1 (non_df_port_count o d)
                                then Some (value_port_count o d + st) else None).
  { unfold other_port, st. destruct o, d; reflexivity. }
  assert (Front : forall j, j < value_port_count o d + st ->
    exists k, nth_error (layout o d) j = Some k /\ (k_value k = true \/ k_static k = true)).
  { intros j L. unfold layout. rewrite nth_values. fold (value_port_count o d). destruct (Nat.ltb_spec j (value_port_count o d)) as [Lj|Lj].
    - destruct (nth_error (side d (sig_of o)) j) as [t|] eqn:E; [exists (EValue t); auto|]. apply nth_error_None in E.
      unfold value_port_count in Lj. lia.
    - unfold st in L. destruct (static_port_kind o d) as [k|]; cbn [is_some Nat.b2n] in L; [|lia].
      replace (j - value_port_count o d) with 0 by lia. exists k. cbn. auto. }
  assert (Back : forall j, value_port_count o d + st <= j -> nth_error (layout o d) j =
    match other_port_kind o d with Some k => nth_error (repeat k (non_df_port_count o d)) (j - (value_port_count o d + st)) | None => None end).
  { intros j L. unfold layout. rewrite nth_values. fold (value_port_count o d). destruct (Nat.ltb_spec j (value_port_count o d)) as [Lj|Lj]; [lia|].
    unfold st in *. destruct (static_port_kind o d) as [k|]; cbn [is_some Nat.b2n app] in *.
    - destruct (j - value_port_count o d) as [|m] eqn:Em; [lia|]. cbn [nth_error]. replace (j - (value_port_count o d + 1)) with m by lia.
      destruct (other_port_kind o d); [reflexivity|]. now destruct m.
    - rewrite Nat.add_0_r. destruct (other_port_kind o d); [reflexivity|]. now destruct (j - value_port_count o d). }
  rewrite Hs. split.
  - destruct (other_port_kind o d) as [k|]; cbn [is_some andb]; [|discriminate].
    destruct (Nat.leb_spec 1 (non_df_port_count o d)) as [L|L]; [|discriminate]. intros E. injection E as <-. split.
    + exists k. rewrite Back by lia. rewrite Nat.sub_diag. split; [apply repeat_nth; lia|]. destruct (Ot k eq_refl). auto.
    + intros j k' Lj E. destruct (Front j Lj) as (k2 & E2 & H). congruence.
  - intros [(k & E & Kv & Ks) Hj]. destruct (Nat.lt_ge_cases i (value_port_count o d + st)) as [L|L].
    + destruct (Front i L) as (k2 & E2 & H). rewrite E in E2. injection E2 as <-. destruct H; congruence.
    + rewrite (Back i L) in E. destruct (other_port_kind o d) as [k2|]; [|discriminate]. cbn [is_some andb].
      assert (i - (value_port_count o d + st) < non_df_port_count o d).
      { rewrite <- (repeat_length k2 (non_df_port_count o d)). apply nth_error_Some. congruence. }
      destruct (Nat.leb_spec 1 (non_df_port_count o d)) as [L1|L1]; [|lia]. f_equal.
      destruct (Nat.eq_dec (value_port_count o d + st) i) as [|Ne]; [assumption|]. exfalso.
      destruct (Hj (value_port_count o d + st) k2) as [H'|H']; [lia|rewrite Back by lia; rewrite Nat.sub_diag; apply repeat_nth; lia| |];
        destruct (Ot k2 eq_refl); congruence.
Qed.
Print Assumptions op_other_port.

(** "Returns None [...] if the operation defines multiple non-dataflow ports" (ops.rs:203): it does not. *)
Theorem other_port_multiple_refuted : exists o d l i, ports o d l /\ other_port o d = Some i /\
  exists j, i <> j /\ nth_error l i = nth_error l j /\ nth_error l i = Some EControl.
Proof.
  exists (OBlock [] [] [[]; []]), Out, [EControl; EControl], 0. split; [apply ports_block_out|]. split; [reflexivity|].
  exists 1. repeat split. discriminate.
Qed.
Print Assumptions other_port_multiple_refuted.

(** [port_kind] also gives a kind for ports that do not exist. *)
Theorem port_kind_of_existing_ports_only_refuted : exists o d i, port_count o d <= i /\ port_kind o d i <> None.
Proof. exists (ODfg ([], [])), Inc, 7. split; [cbn; lia|discriminate]. Qed.
Print Assumptions port_kind_of_existing_ports_only_refuted.

(** The classes of operations say which operations have static ports and dataflow regions. *)
Theorem op_tag_static : forall o,
  (within TStaticInput (op_tag o) = true <-> exists l k, ports o Inc l /\ In k l /\ k_static k = true) /\
  (within TStaticOutput (op_tag o) = true <-> exists l k, ports o Out l /\ In k l /\ k_static k = true).
Proof.
  assert (V : forall r k, In k (values r) -> k_static k = false).
  { intros r k I. apply in_map_iff in I. now destruct I as (t & <- & _). }
  assert (C : forall (rows : list (list ty)) k, In k (map (fun _ => EControl) rows) -> k_static k = false).
  { intros r k I. apply in_map_iff in I. now destruct I as (t & <- & _). }
  intros o. split; split.
  - intros H. destruct o; try discriminate H.
    + destruct inst as [x y]. exists (values x ++ [EFunction f; EOrder]), (EFunction f). split; [constructor|]. rewrite in_app_iff. cbn. auto.
    + exists [EConst t; EOrder], (EConst t). split; [constructor|]. cbn. auto.
    + destruct inst as [x y]. exists [EFunction f; EOrder], (EFunction f). split; [constructor|]. cbn. auto.
  - intros (l & k & P & I & S). inversion P; subst; try reflexivity; exfalso; cbn in I; rewrite ?in_app_iff in I; cbn in I;
      repeat (destruct I as [I|I]); try contradiction; try (subst; discriminate); try (rewrite (V _ _ I) in S; discriminate).
  - intros H. destruct o; try discriminate H.
    + exists [EFunction f], (EFunction f). split; [constructor|]. cbn. auto.
    + exists [EFunction f], (EFunction f). split; [constructor|]. cbn. auto.
    + exists [EConst t], (EConst t). split; [constructor|]. cbn. auto.
  - intros (l & k & P & I & S). inversion P; subst; try reflexivity; exfalso; cbn in I; rewrite ?in_app_iff in I; cbn in I;
      repeat (destruct I as [I|I]); try contradiction; try (subst; discriminate); try (rewrite (V _ _ I) in S; discriminate).
    rewrite (C _ _ I) in S. discriminate.
Qed.
Print Assumptions op_tag_static.

Theorem op_tag_region : forall o i out,
  (inner_signature o = Some (i, out) <-> region o i out) /\
  (within TDataflowParent (op_tag o) = true <-> exists i out, region o i out).
Proof.
  intros o i out. split; split.
  - intros H. destruct o; try discriminate H; try destruct s as [x y]; injection H as <- <-; constructor.
  - intros R. now destruct R.
  - intros H. destruct o; try discriminate H; try destruct s as [x y]; eexists; eexists; constructor.
  - intros (x & y & R). now destruct R.
Qed.
Print Assumptions op_tag_region.

Example op_ports_nonvacuous :
  let f := {| p_params := [KType Linear]; p_ins := [TVar 0 Linear]; p_outs := [] |} in
  let o := OCall f [MType (TAlias 3 Linear)] ([TAlias 3 Linear; TAlias 4 Copyable], []) in
  ports o Inc [EValue (TAlias 3 Linear); EValue (TAlias 4 Copyable); EFunction f; EOrder] /\
  port_count o Inc = 4 /\ map (port_kind o Inc) [0; 2; 3] = [Some (EValue (TAlias 3 Linear)); Some (EFunction f); Some EOrder] /\
  static_port o Inc = Some 2 /\ other_port o Inc = Some 3 /\ port_count (OBlock [] [] [[]; []; []]) Out = 3.
Proof. split; [apply (ports_call_in _ _ [TAlias 3 Linear; TAlias 4 Copyable])|]. repeat split. Qed.

(** ** C44 *)
Section Substitute.
  Variable env : N -> N -> option typedef.

  (** Constants and what loads them have closed types. *)
  Definition closed_load (s : list term) (o : op) : Prop :=
    match o with OLoadConstant t => subst_ty env s t = Some [t] | _ => True end.

  Ltac cases E :=
    repeat match type of E with context [match ?x with Some _ => _ | None => _ end] =>
      match x with context [match _ with Some _ => _ | None => _ end] => fail 1 | _ => destruct x eqn:? end end;
    try discriminate E; try (injection E as <-).

  Theorem substitute_signature : forall s o o', tag_in_range o = true -> closed_load s o -> op_substitute env s o = Some o' ->
    match dataflow_signature o with
    | Some x => exists x', dataflow_signature o' = Some x' /\ subst_sig env s x = Some x'
    | None => dataflow_signature o' = None
    end.
  Proof.
    intros s o o' T C E. destruct o; cbn [op_substitute] in E; unfold option_map in E; cases E; try reflexivity;
      cbn [dataflow_signature]; eexists; (split; [reflexivity|]); try assumption; unfold subst_sig; cbn [fst snd].
    - (* input *) rewrite Heqo. reflexivity.
    - (* output *) now rewrite Heqo.
    - (* indirect call *) destruct s0 as [i o]. unfold subst_sig in Heqo. cbn [fst snd] in *.
      pose proof Heqo as H. destruct (subst_row env s i) as [i'|] eqn:Ei; [|discriminate]. destruct (subst_row env s o) as [o'|] eqn:Eo; [|discriminate].
      injection Heqo as <-. rewrite (subst_row_cons1 env s (TFun i o) i (TFun i' o') i'); [reflexivity| |exact Ei].
      rewrite (subst_row_fun env s i o (i', o')); [reflexivity|]. unfold subst_sig. cbn [fst snd]. now rewrite Ei, Eo.
    - (* load constant *) cbn in C. rewrite (subst_row_cons1 env s t [] t []); auto.
    - (* load function *) destruct inst as [i o]. cbn [fst snd].
      rewrite (subst_row_cons1 env s (TFun i o) [] (TFun (fst s0) (snd s0)) []); auto. now apply subst_row_fun.
    - (* tag *) cbn in T. apply Nat.ltb_lt in T. pose proof (subst_rows_nth env s variants l tag Heqo) as Nt.
      destruct (nth_error variants tag) as [r|] eqn:Er; [|apply nth_error_None in Er; lia]. destruct Nt as (r' & Er' & Hr).
      apply (nth_error_nth _ _ (@nil ty)) in Er, Er'. unfold row in *. rewrite Er, Er', Hr.
      rewrite (subst_row_cons1 env s (new_sum variants) [] (new_sum l) []); auto. now apply subst_row_sum.
    - (* tail loop *) rewrite !subst_row_app, Heqo, Heqo0, Heqo1. reflexivity.
    - (* conditional *) rewrite (subst_row_cons1 env s (new_sum sum_rows) other_inputs (new_sum l) l0); auto; [now rewrite Heqo1|].
      now apply subst_row_sum.
  Qed.

  (** The same for the boundary of the contained dataflow graph, except for functions, which bind
      their own variables. *)
  Theorem substitute_inner_signature : forall s o o', op_substitute env s o = Some o' ->
    match o with
    | OFuncDefn _ _ _ => o' = o
    | _ =>
      match inner_signature o with
      | Some x => exists x', inner_signature o' = Some x' /\ subst_sig env s x = Some x'
      | None => inner_signature o' = None
      end
    end.
  Proof.
    intros s o o' E. destruct o; cbn [op_substitute] in E; unfold option_map in E; cases E; try reflexivity;
      cbn [inner_signature]; eexists; (split; [reflexivity|]); try assumption; unfold subst_sig; cbn [fst snd].
    - (* block *) rewrite Heqo. rewrite (subst_row_cons1 env s (new_sum sum_rows) other_outputs (new_sum l1) l0); auto. now apply subst_row_sum.
    - (* tail loop *) rewrite !subst_row_app, Heqo, Heqo1.
      rewrite (subst_row_cons1 env s (new_sum [just_inputs; just_outputs]) rest (new_sum [l; l0]) l1); auto.
      apply subst_row_sum. unfold subst_rows. cbn [map]. rewrite Heqo, Heqo0. reflexivity.
  Qed.

  (** The class of an operation, its static ports and its kinds of other ports stay the same. *)
  Theorem substitute_shape : forall s o o', op_substitute env s o = Some o' ->
    op_tag o' = op_tag o /\ (forall d, static_port_kind o' d = static_port_kind o d) /\
    (forall d, other_port_kind o' d = other_port_kind o d) /\ tag_in_range o' = tag_in_range o /\
    (forall d, non_df_port_count o' d = non_df_port_count o d).
  Proof.
    intros s o o' E. destruct o; cbn [op_substitute] in E; unfold option_map in E; cases E; repeat split; cbn; auto.
    - unfold subst_rows in Heqo. apply all_some_Forall2 in Heqo. apply Forall2_len in Heqo. unfold row in *. now rewrite Heqo.
    - intros [|]; [reflexivity|]. unfold subst_rows in Heqo1. apply all_some_Forall2 in Heqo1. now apply Forall2_len in Heqo1.
  Qed.

  (** Without row variables in its signature an operation keeps its numbers of ports. *)
  Definition no_row_vars (r : list ty) : Prop := forall i b, ~ In (TRow i b) r.

  Lemma single : forall s t l, (forall i b, t <> TRow i b) -> subst_ty env s t = Some l -> exists u, l = [u].
  Proof.
    intros s t l Nr E. destruct t.
    - rewrite subst_ext_eq in E. destruct (all_some _); [|discriminate]. destruct (env ext id); [|discriminate].
      destruct (def_bound t l0); [|discriminate]. injection E as <-. eauto.
    - injection E as <-. eauto.
    - rewrite subst_fun_eq in E. destruct (all_some _); [|discriminate]. destruct (all_some _); [|discriminate]. injection E as <-. eauto.
    - rewrite subst_tvar_eq in E. destruct (nth_error s i) as [[]|]; try discriminate. injection E as <-. eauto.
    - now destruct (Nr i b).
    - rewrite subst_sum_eq in E. destruct (all_some _); [|discriminate]. injection E as <-. eauto.
  Qed.

  Lemma row_length : forall s r r', no_row_vars r -> subst_row env s r = Some r' -> length r' = length r.
  Proof.
    intros s r r' Nr E. apply subst_row_iff in E. destruct E as (rs & F & ->).
    induction F as [|t l r rs E F IH]; [reflexivity|]. destruct (single s t l) as (u & ->).
    - intros i b ->. apply (Nr i b). now left.
    - exact E.
    - cbn. f_equal. apply IH. intros i b I. apply (Nr i b). now right.
  Qed.

  Theorem substitute_port_count : forall s o o', tag_in_range o = true -> closed_load s o ->
    op_substitute env s o = Some o' -> no_row_vars (fst (sig_of o)) -> no_row_vars (snd (sig_of o)) ->
    forall d, port_count o' d = port_count o d.
  Proof.
    intros s o o' T C E N1 N2 d. pose proof (substitute_signature s o o' T C E) as S.
    destruct (substitute_shape s o o' E) as (_ & St & _ & _ & Nd). unfold port_count. rewrite St, Nd. f_equal. f_equal.
    unfold value_port_count, sig_of in *. destruct (dataflow_signature o) as [x|]; [|now rewrite S].
    destruct S as (x' & -> & E'). unfold subst_sig in E'. destruct (subst_row env s (fst x)) as [i|] eqn:Ei; [|discriminate].
    destruct (subst_row env s (snd x)) as [u|] eqn:Eu; [|discriminate]. injection E' as <-.
    destruct d; cbn [side fst snd]; eapply row_length; eauto.
  Qed.

  Lemma stages_row : forall decls s1 s2 s12 r l1 l2,
    check_terms s1 decls = true -> Forall (fun a => plain_term true a = true) s1 -> Forall (fun a => plain_term true a = true) s2 ->
    Forall2 (fun a b => subst_term env s2 a = Some b) s1 s12 ->
    forallb (valid_ty env decls) r = true -> forallb (plain_ty true) r = true ->
    subst_row env s1 r = Some l1 -> subst_row env s2 l1 = Some l2 -> subst_row env s12 r = Some l2.
  Proof.
    intros decls s1 s2 s12 r l1 l2 F P1 P2 S. revert l1 l2. induction r as [|t r IH]; intros l1 l2 V P E1 E2.
    - injection E1 as <-. exact E2.
    - cbn [forallb] in V, P. apply andb_prop in V, P. destruct V as [V Vr], P as [P Pr].
      change (t :: r) with ([t] ++ r) in E1 |- *. apply TypesSubst.subst_row_app in E1. destruct E1 as (x & y & Ex & Ey & ->).
      apply TypesSubst.subst_row_app in E2. destruct E2 as (x2 & y2 & Ex2 & Ey2 & ->).
      rewrite subst_row_single in Ex.
      rewrite subst_row_app, (IH y y2 Vr Pr Ey Ey2), subst_row_single.
      now rewrite (proj1 (compose_both env decls s1 s2 s12 F P1 P2 S) t V P x x2 Ex Ex2).
  Qed.

  (** A call keeps agreeing with the function it calls: the cached instantiation stays the
      instantiation by the arguments (what [Call::validate] checks, dataflow.rs:288-299), in the plain
      fragment of the language of types.  The same holds for [LoadFunction]. *)
  Theorem substitute_call_partial : forall decls s f args inst args' inst',
    check_terms s decls = true -> Forall (fun a => plain_term true a = true) s ->
    poly_valid env f = true -> forallb (plain_ty true) (p_ins f) = true -> forallb (plain_ty true) (p_outs f) = true ->
    Forall (fun k => flat_kind k = true) (p_params f) ->
    Forall (fun a => valid_term env decls a = true) args -> Forall cached_term args -> Forall (fun a => plain_term true a = true) args ->
    instantiate env f args = Done inst ->
    op_substitute env s (OCall f args inst) = Some (OCall f args' inst') \/
    op_substitute env s (OLoadFunction f args inst) = Some (OLoadFunction f args' inst') ->
    instantiate env f args' = Done inst'.
  Proof.
    intros decls s f args [x y] args' inst' Fit Ps Pv P1 P2 Fl Va Ca Pa E Sub.
    assert (H : all_some (map (subst_term env s) args) = Some args' /\ subst_sig env s (x, y) = Some inst').
    { destruct Sub as [Sub|Sub]; cbn [op_substitute] in Sub; destruct (all_some _); try discriminate; destruct (subst_sig _ _ _); try discriminate;
        injection Sub as <- <-; auto. }
    clear Sub. destruct H as [Ha Hs]. unfold subst_sig in Hs. cbn [fst snd] in Hs.
    destruct (subst_row env s x) as [x'|] eqn:Ex; [|discriminate]. destruct (subst_row env s y) as [y'|] eqn:Ey; [|discriminate].
    injection Hs as <-. unfold instantiate in E. destruct (check_terms args (p_params f)) eqn:Ck; [|discriminate].
    destruct (subst_row env args (p_ins f)) as [x0|] eqn:Ex0; [|discriminate].
    destruct (subst_row env args (p_outs f)) as [y0|] eqn:Ey0; [|discriminate]. injection E as -> ->.
    apply all_some_Forall2 in Ha. unfold poly_valid in Pv. apply andb_prop in Pv. unfold instantiate.
    assert (Ck' : check_terms args' (p_params f) = true).
    { unfold check_terms in *. apply list_eqb_Forall2. apply list_eqb_Forall2 in Ck.
      clear - Ha Ck Fl Va Ca Pa Fit Ps. revert args' Ha. induction Ck as [|a k args ks H Ck IH]; intros args' Ha; inversion Ha; subst; [constructor|].
      inversion Fl; inversion Va; inversion Ca; inversion Pa; subst. constructor; [|auto].
      eapply (subst_check env decls s); eauto. }
    rewrite Ck', (stages_row (p_params f) args s args' _ _ _ Ck Pa Ps Ha (proj1 Pv) P1 Ex0 Ex),
      (stages_row (p_params f) args s args' _ _ _ Ck Pa Ps Ha (proj2 Pv) P2 Ey0 Ey). reflexivity.
  Qed.
End Substitute.
Print Assumptions substitute_signature.
Print Assumptions substitute_inner_signature.
Print Assumptions substitute_shape.
Print Assumptions substitute_port_count.
Print Assumptions substitute_call_partial.

(** Constants loaded from types with variables are not substituted (dataflow.rs:366-369 relies on them being closed). *)
Theorem substitute_load_constant_refuted : exists env s o o' x x',
  op_substitute env s o = Some o' /\ dataflow_signature o = Some x /\ subst_sig env s x = Some x' /\
  dataflow_signature o' <> Some x'.
Proof.
  exists (fun _ _ => None), [MType (TAlias 1 Copyable)], (OLoadConstant (TVar 0 Copyable)), (OLoadConstant (TVar 0 Copyable)),
    ([], [TVar 0 Copyable]), ([], [TAlias 1 Copyable]). repeat split. discriminate.
Qed.
Print Assumptions substitute_load_constant_refuted.

Example substitute_nonvacuous :
  let s := [MType (TAlias 7 Linear); MList [MType (TAlias 8 Copyable); MType (TAlias 9 Copyable)]] in
  let o := OConditional [[TVar 0 Linear]; []] [TFun [TRow 1 Copyable] []] [TVar 0 Linear] in
  op_substitute (fun _ _ => None) s o =
    Some (OConditional [[TAlias 7 Linear]; []] [TFun [TAlias 8 Copyable; TAlias 9 Copyable] []] [TAlias 7 Linear]) /\
  no_row_vars (fst (sig_of o)) /\ no_row_vars (snd (sig_of o)) /\
  subst_sig (fun _ _ => None) s (sig_of o) =
    Some ([new_sum [[TAlias 7 Linear]; []]; TFun [TAlias 8 Copyable; TAlias 9 Copyable] []], [TAlias 7 Linear]).
Proof.
  split; [reflexivity|]. split; [|split; [|reflexivity]]; intros i b; cbn; intuition discriminate.
Qed.

Example substitute_call_nonvacuous :
  let f := {| p_params := [KType Linear]; p_ins := [TVar 0 Linear]; p_outs := [TSum [[TVar 0 Linear]] Linear] |} in
  let o := OCall f [MType (TVar 2 Copyable)] ([TVar 2 Copyable], [TSum [[TVar 2 Copyable]] Copyable]) in
  let env := fun _ _ => None in
  instantiate env f [MType (TVar 2 Copyable)] = Done ([TVar 2 Copyable], [TSum [[TVar 2 Copyable]] Copyable]) /\
  let s := [MNat 1; MNat 2; MType (TAlias 5 Copyable)] in
  check_terms s [KNat None; KNat None; KType Copyable] = true /\
  op_substitute env s o = Some (OCall f [MType (TAlias 5 Copyable)] ([TAlias 5 Copyable], [TSum [[TAlias 5 Copyable]] Copyable])).
Proof. vm_compute. auto. Qed.

(** ** C45 *)
(** The operations around which a new graph can be made. *)
Definition supported (o : op) : Prop :=
  match o with
  | OModule | OFuncDefn _ _ _ | ODfg _ | OCfg _ | OTailLoop _ _ _ | OConditional _ _ _ => True
  | _ => False
  end.

Definition ports_match {M} (h : hugr op M) : Prop :=
  forall n, In n (h_nodes h) -> h_in h n = in_count (h_ops h n) /\ h_out h n = out_count (h_ops h n).

Lemma value_ports_le : forall o s, dataflow_signature o = Some s -> length (fst s) <= in_count o /\ length (snd s) <= out_count o.
Proof.
  intros o s E. unfold in_count, out_count, port_count, value_port_count, sig_of. rewrite E. cbn [side]. lia.
Qed.

Lemma added_ports : forall {M} (h h' : hugr op M) p o, added h h' p o -> ports_match h -> ports_match h'.
Proof.
  intros M h h' p o A P n. rewrite (ad_nodes _ _ _ _ A), (ad_in _ _ _ _ A), (ad_out _ _ _ _ A), (ad_ops _ _ _ _ A). unfold upd.
  destruct (N.eqb_spec n (next_index h)); [auto|]. intros [<-|I]; [congruence|]. now apply P.
Qed.

Lemma new_ports : forall {M}, ports_match (new_hugr (M := M) OModule 0).
Proof. intros M n [<-|[]]. split; reflexivity. Qed.

(** A dataflow operation is put into a function of its own signature. *)
Record wrapped {M} (main : N) (h : hugr op M) (o : op) (s : sig) : Prop := {
  wr_wf : wf h;
  wr_ports : ports_match h;
  wr_nodes : h_nodes h = [4; 3; 2; 1; 0]%N;
  wr_root : h_root h = 0%N /\ h_ops h 0%N = OModule /\ h_kids h 0%N = [1%N];
  wr_func : h_ops h 1%N = OFuncDefn main {| p_params := []; p_ins := fst s; p_outs := snd s |} false /\
            h_kids h 1%N = [2; 3; 4]%N;
  wr_io : h_ops h 2%N = OInput (fst s) /\ h_ops h 3%N = OOutput (snd s);
  wr_entry : h_entry h = 4%N /\ h_ops h 4%N = o;
  wr_links : h_links h = map (fun i => ((2%N, i), (4%N, i))) (seq 0 (length (fst s))) ++
                         map (fun i => ((4%N, i), (3%N, i))) (seq 0 (length (snd s)));
  wr_meta : forall n, h_meta h n = None }.

Lemma wrap : forall {M} main o s, dataflow_signature o = Some s ->
  exists h : hugr op (M), 
    opt_bind (add_next (new_hugr OModule 0) 0 (OFuncDefn main {| p_params := []; p_ins := fst s; p_outs := snd s |} false)) (fun h =>
    opt_bind (add_next h 1 (OInput (fst s))) (fun h =>
    opt_bind (add_next h 1 (OOutput (snd s))) (fun h =>
    opt_bind (add_next h 1 o) (fun h =>
    opt_bind (connect_ports (length (fst s)) h 2 4) (fun h =>
    opt_bind (connect_ports (length (snd s)) h 4 3) (fun h =>
    set_entrypoint h 4)))))) = Some h /\ wrapped main h o s.
Proof.
  intros M main o s S. set (h0 := new_hugr OModule 0). pose proof (value_ports_le o s S) as [Li Lo].
  assert (X0 : next_index h0 = 1%N) by reflexivity.
  destruct (add_next_spec h0 0 (OFuncDefn main {| p_params := []; p_ins := fst s; p_outs := snd s |} false))
    as (h1 & E1 & A1); [apply (new_wf OModule)|apply new_dense|now left|]. rewrite E1. cbn [opt_bind].
  pose proof (ad_nodes _ _ _ _ A1) as N1. rewrite X0 in N1. cbn in N1.
  assert (X1 : next_index h1 = 2%N) by (unfold next_index; now rewrite N1).
  destruct (add_next_spec h1 1 (OInput (fst s))) as (h2 & E2 & A2); [apply A1|apply A1|rewrite N1; now left|]. rewrite E2. cbn [opt_bind].
  pose proof (ad_nodes _ _ _ _ A2) as N2. rewrite X1, N1 in N2.
  assert (X2 : next_index h2 = 3%N) by (unfold next_index; now rewrite N2).
  destruct (add_next_spec h2 1 (OOutput (snd s))) as (h3 & E3 & A3); [apply A2|apply A2|rewrite N2; right; now left|]. rewrite E3. cbn [opt_bind].
  pose proof (ad_nodes _ _ _ _ A3) as N3. rewrite X2, N2 in N3.
  assert (X3 : next_index h3 = 4%N) by (unfold next_index; now rewrite N3).
  destruct (add_next_spec h3 1 o) as (h4 & E4 & A4); [apply A3|apply A3|rewrite N3; right; right; now left|]. rewrite E4. cbn [opt_bind].
  pose proof (ad_nodes _ _ _ _ A4) as N4. rewrite X3, N3 in N4.
  assert (P4 : ports_match h4) by (eapply added_ports; [exact A4|]; eapply added_ports; [exact A3|]; eapply added_ports; [exact A2|];
    eapply added_ports; [exact A1|]; apply new_ports).
  assert (O4 : forall n, h_ops h4 n = upd (upd (upd (upd (h_ops h0) 1%N (OFuncDefn main {| p_params := []; p_ins := fst s; p_outs := snd s |} false)) 2%N
                           (OInput (fst s))) 3%N (OOutput (snd s))) 4%N o n).
  { intros n. now rewrite (ad_ops _ _ _ _ A4), X3, (ad_ops _ _ _ _ A3), X2, (ad_ops _ _ _ _ A2), X1, (ad_ops _ _ _ _ A1), X0. }
  assert (I2 : h_in h4 4%N = in_count o /\ h_out h4 4%N = out_count o).
  { replace o with (h_ops h4 4%N) by now rewrite O4. apply P4. rewrite N4. now left. }
  assert (I3 : length (snd s) <= h_in h4 3%N).
  { rewrite (proj1 (P4 3%N ltac:(rewrite N4; right; now left))), O4. cbn. unfold in_count, port_count, value_port_count. cbn. lia. }
  assert (I1 : length (fst s) <= h_out h4 2%N).
  { rewrite (proj2 (P4 2%N ltac:(rewrite N4; right; right; now left))), O4. cbn. unfold out_count, port_count, value_port_count. cbn. lia. }
  rewrite connect_ports_spec; [|rewrite N4; cbn; auto|rewrite N4; cbn; auto|exact I1|destruct I2 as [-> _]; exact Li]. cbn [opt_bind].
  rewrite connect_ports_spec; cbn [h_nodes h_out h_in set_links]; [|rewrite N4; cbn; auto|rewrite N4; cbn; auto|destruct I2 as [_ ->]; exact Lo|exact I3].
  cbn [opt_bind]. unfold set_entrypoint, contains. cbn [h_nodes set_links]. rewrite N4. cbn [memN existsb]. rewrite N.eqb_refl. cbn [orb].
  eexists. split; [reflexivity|].
  assert (K4 : forall n, h_kids h4 n = if N.eqb n 0 then [1%N] else if N.eqb n 1 then [2; 3; 4]%N else []).
  { intros n. rewrite (ad_kids _ _ _ _ A4), X3, (ad_kids _ _ _ _ A3), X2, (ad_kids _ _ _ _ A2), X1, (ad_kids _ _ _ _ A1), X0.
    unfold upd. cbn. destruct (N.eqb_spec n 1) as [->|]; [reflexivity|]. destruct (N.eqb n 0); reflexivity. }
  assert (L4 : h_links h4 = []) by now rewrite (ad_links _ _ _ _ A4), (ad_links _ _ _ _ A3), (ad_links _ _ _ _ A2), (ad_links _ _ _ _ A1).
  assert (R4 : h_root h4 = 0%N) by now rewrite (ad_root _ _ _ _ A4), (ad_root _ _ _ _ A3), (ad_root _ _ _ _ A2), (ad_root _ _ _ _ A1).
  assert (M4 : h_meta h4 = h_meta h0) by now rewrite (ad_meta _ _ _ _ A4), (ad_meta _ _ _ _ A3), (ad_meta _ _ _ _ A2), (ad_meta _ _ _ _ A1).
  constructor; cbn [h_nodes h_ops h_kids h_root h_entry h_links h_meta set_entry set_links]; rewrite ?O4, ?K4, ?R4, ?L4, ?M4; auto; try (intros; reflexivity).
  - apply set_entry_wf; [|cbn; rewrite N4; now left]. apply links_only_wf; [apply links_only_wf; [apply A4|]|]; cbn [app].
    + intros l I. apply in_map_iff in I. destruct I as (i & <- & I). apply in_seq in I. unfold out_port, in_port. cbn [fst snd]. destruct I2 as [J1 J2].
      rewrite N4. cbn. repeat split; auto; rewrite ?J1, ?J2; lia.
    + intros l I. apply in_app_iff in I. unfold out_port, in_port. cbn [h_nodes h_in h_out set_links]. 
      destruct I as [I|I]; apply in_map_iff in I; destruct I as (i & <- & I); apply in_seq in I; cbn [fst snd]; rewrite N4; destruct I2 as [J1 J2];
        cbn; repeat split; auto; rewrite ?J1, ?J2; lia.
Qed.

Theorem new_graph_total : forall {M} main o, exists r, make_module_hugr (M := M) main o = Some r /\
  match r with
  | None => ~ supported o
  | Some h => supported o /\ wf h /\ ports_match h /\ h_ops h (h_root h) = OModule /\ h_ops h (h_entry h) = o /\
              (forall n, h_meta h n = None)
  end.
Proof.
  intros M main o.
  assert (Wr : forall s, dataflow_signature o = Some s -> supported o -> exists h : hugr op M,
            (opt_bind (add_next (new_hugr OModule 0) 0 (OFuncDefn main {| p_params := []; p_ins := fst s; p_outs := snd s |} false)) (fun h =>
             opt_bind (add_next h 1 (OInput (fst s))) (fun h =>
             opt_bind (add_next h 1 (OOutput (snd s))) (fun h =>
             opt_bind (add_next h 1 o) (fun h =>
             opt_bind (connect_ports (length (fst s)) h 2 4) (fun h =>
             opt_bind (connect_ports (length (snd s)) h 4 3) (fun h =>
             set_entrypoint h 4)))))) = Some h) /\
            supported o /\ wf h /\ ports_match h /\ h_ops h (h_root h) = OModule /\ h_ops h (h_entry h) = o /\
            (forall n, h_meta h n = None)).
  { intros s E Su. destruct (wrap (M := M) main o s E) as (h & Eh & Wr). exists h. split; [exact Eh|]. split; [exact Su|].
    destruct Wr. destruct wr_root0 as (-> & ? & _). destruct wr_entry0 as (-> & ?). auto 10. }
  destruct o; try (exists None; split; [reflexivity|]; now cbn).
  - (* module *) eexists. split; [reflexivity|]. cbn iota. split; [constructor|]. split; [exact (new_wf OModule 0)|].
    split; [exact new_ports|]. repeat split.
  - (* function *) unfold make_module_hugr. cbn [op_tag]. change (negb (existsb _ _)) with false. change (within TModuleOp TFuncDefn) with true. cbn iota.
    destruct (add_next_spec (M := M) (new_hugr OModule 0) 0 (OFuncDefn name f public)) as (h & E & A);
      [apply (new_wf OModule)|apply new_dense|now left|]. rewrite E. cbn [opt_bind]. unfold set_entrypoint, contains.
    rewrite (ad_nodes _ _ _ _ A). cbn [memN existsb]. change (1 =? next_index (new_hugr OModule 0))%N with true. cbn [orb option_map].
    eexists. split; [reflexivity|]. split; [constructor|]. split; [|split; [|split; [|split]]].
    + apply set_entry_wf; [apply A|]. rewrite (ad_nodes _ _ _ _ A). now left.
    + apply (added_ports _ _ _ _ A), new_ports.
    + cbn [h_ops h_root set_entry]. now rewrite (ad_root _ _ _ _ A), (ad_ops _ _ _ _ A).
    + cbn [h_ops h_entry set_entry]. now rewrite (ad_ops _ _ _ _ A).
    + intros n. cbn [h_meta set_entry]. now rewrite (ad_meta _ _ _ _ A).
  - (* dataflow graph *) destruct (Wr _ eq_refl I) as (h & E & R). exists (Some h). split; [|exact R]. unfold make_module_hugr. cbn [op_tag].
    change (negb (existsb _ _)) with false. change (within TModuleOp TDfg) with false. change (within TDataflowChild TDfg) with true.
    cbn [andb negb dataflow_signature] in *. now rewrite E.
  - (* loop *) destruct (Wr _ eq_refl I) as (h & E & R). exists (Some h). split; [|exact R]. unfold make_module_hugr. cbn [op_tag].
    change (negb (existsb _ _)) with false. change (within TModuleOp TTailLoop) with false. change (within TDataflowChild TTailLoop) with true.
    cbn [andb negb dataflow_signature] in *. now rewrite E.
  - (* control flow graph *) destruct (Wr _ eq_refl I) as (h & E & R). exists (Some h). split; [|exact R]. unfold make_module_hugr. cbn [op_tag].
    change (negb (existsb _ _)) with false. change (within TModuleOp TCfg) with false. change (within TDataflowChild TCfg) with true.
    cbn [andb negb dataflow_signature] in *. now rewrite E.
  - (* conditional *) destruct (Wr _ eq_refl I) as (h & E & R). exists (Some h). split; [|exact R]. unfold make_module_hugr. cbn [op_tag].
    change (negb (existsb _ _)) with false. change (within TModuleOp TConditional) with false. change (within TDataflowChild TConditional) with true.
    cbn [andb negb dataflow_signature] in *. now rewrite E.
Qed.
Print Assumptions new_graph_total.

(** The shape of the graph made for a dataflow operation. *)
Theorem new_graph_wiring : forall {M} main o s, supported o -> dataflow_signature o = Some s ->
  exists h : hugr op M, make_module_hugr main o = Some (Some h) /\ wrapped main h o s.
Proof.
  intros M main o s Su E. destruct (wrap (M := M) main o s E) as (h & Eh & W). exists h. split; [|exact W].
  destruct o; try (destruct Su); try discriminate; unfold make_module_hugr; cbn [op_tag];
    change (negb (existsb _ _)) with false; match goal with |- context [within TModuleOp ?t] => change (within TModuleOp t) with false; change (within TDataflowChild t) with true end;
    cbn [andb negb]; rewrite E; now rewrite Eh.
Qed.
Print Assumptions new_graph_wiring.

Example new_graph_nonvacuous :
  let b := TAlias 1 Copyable in let q := TAlias 2 Linear in
  option_map (option_map (fun h => (h_nodes h, h_links h, h_entry h, h_in h 4%N, h_out h 4%N)))
    (make_module_hugr (M := unit) 0 (OTailLoop [b] [q] [q; b])) =
  Some (Some ([4; 3; 2; 1; 0]%N,
    [((2%N, 0), (4%N, 0)); ((2%N, 1), (4%N, 1)); ((2%N, 2), (4%N, 2));
     ((4%N, 0), (3%N, 0)); ((4%N, 1), (3%N, 1)); ((4%N, 2), (3%N, 2))], 4%N, 4, 4)) /\
  make_module_hugr (M := unit) 0 (OCase ([b], [q])) = Some None /\
  option_map (option_map (fun h => (h_nodes h, h_kids h 0%N, h_entry h)))
    (make_module_hugr (M := unit) 0 (OFuncDefn 5 {| p_params := []; p_ins := [b]; p_outs := [q] |} true)) =
  Some (Some ([1; 0], [1], 1))%N.
Proof. vm_compute. auto. Qed.
