(** A HUGR that holds a renamed copy of a set of nodes takes the same steps there. *)
From Coq Require Import List Bool NArith Arith Lia.
From Verif Require Import PValModel TypesModel GraphModel GraphSpec PValSpec GraphProofs OpModel DeadModel InlineModel ReplaceModel FlowModel FlowSpec MirrorProofs.
Import ListNotations.
Local Notation wf := GraphSpec.wf.

Section Rename.
  Context {W V E F M : Type}.
  Notation conc := (conc W N unit).
  Notation hugr := (hugr op M).
  Notation frame := (@frame W).
  Variable sem : @semantics W E F.
  Variable ctx : @context V E F.
  Variable A B : hugr.
  Variable K : N -> Prop.
  Variable rho : N -> N.

  Record renamed : Prop := {
    r_ops : forall n, K n -> h_ops B (rho n) = h_ops A n;
    r_io : forall n i o, K n -> get_io A n = Some (i, o) -> get_io B (rho n) = Some (rho i, rho o) /\ K i /\ K o;
    r_case : forall n rows oi ou k c, K n -> h_ops A n = OConditional rows oi ou -> nth_error (h_kids A n) k = Some c -> is_case (h_ops A c) = true ->
      nth_error (h_kids B (rho n)) k = Some (rho c) /\ K c;
    r_first : forall n g e, K n -> h_ops A n = OCfg g -> hd_error (h_kids A n) = Some e -> hd_error (h_kids B (rho n)) = Some (rho e) /\ K e;
    r_exit : forall n g e, K n -> h_ops A n = OCfg g -> nth_error (h_kids A n) 1 = Some e -> nth_error (h_kids B (rho n)) 1 = Some (rho e) /\ K e;
    r_block : forall n g t, K n -> h_ops A n = OCfg g -> In t (h_kids A n) -> is_block (h_ops A t) = true -> In (rho t) (h_kids B (rho n)) /\ K t;
    r_next : forall b k t j, K b -> K t -> is_block (h_ops A b) = true -> In (t, j) (linked_inputs A b k) -> In (rho t, j) (linked_inputs B (rho b) k);
    r_leaf : forall n ins outs, K n -> leaf_step sem ctx A n ins outs -> leaf_step sem ctx B (rho n) ins outs }.

  (** The copy of an action. *)
  Definition rename (a : action) : @action W :=
    match a with
    | Put n cs => Put (rho n) cs
    | Enter p i cs => Enter (rho p) (rho i) cs
    | Jump c p i cs => Jump (rho c) (rho p) (rho i) cs
    | Finish n cs => Finish (rho n) cs
    end.
  (** No call and no boundary. *)
  Definition steps_alone (o : op) : Prop := match o with OInput _ | OOutput _ | OFuncDefn _ _ _ | OCall _ _ _ => False | _ => True end.

  Hypothesis WA : wf A.
  Hypothesis R : renamed.

  Lemma fits_rename n (cs : list conc) : K n -> fits A n cs -> fits B (rho n) cs.
  Proof. unfold fits, out_count. intros H. rewrite (r_ops R n H). auto. Qed.
  Lemma kid_parent' n c : In c (h_kids A n) -> h_parent A c = Some n.
  Proof. apply (wf_kids _ WA). Qed.
  Lemma leaf_alone n ins outs : leaf_step sem ctx A n ins outs -> steps_alone (h_ops A n).
  Proof. intros H. destruct H; match goal with X : h_ops A n = _ |- _ => rewrite X end; exact Logic.I. Qed.

  Ltac go1 := first [assumption | reflexivity | eapply leaf_alone; eassumption | eapply leaf_acts; eassumption | match goal with X : h_ops A ?n = _ |- _ (h_ops A ?n) => rewrite X; exact Logic.I end |
    match goal with |- exists _, _ => eexists; eassumption end | left; reflexivity | right; apply kid_parent'; eapply nth_error_In; eassumption |
    apply kid_parent', hd_in; assumption | apply kid_parent'; assumption].
  Ltac go := split; [assumption|split; [go1|split; [cbn [shape]; repeat match goal with |- _ /\ _ => split end; go1|split; [reflexivity|split; [
    intros Kn; cbn [touched]; first [exact Kn | eapply (r_case R); eassumption | eapply (r_first R); eassumption | eapply (r_block R); eassumption]|]]]]].

  Lemma local_rename fr fr2 : local_step sem ctx A fr fr2 ->
    exists n a, waiting A fr n /\ steps_alone (h_ops A n) /\ shape A n a /\ fr2 = apply A a fr /\ (K n -> K (touched a)) /\
      forall fr', (forall m, K m -> env fr' (rho m) = env fr m) -> pc fr' (rho n) = option_map rho (pc fr n) -> K n -> (forall b, pc fr n = Some b -> K b) ->
        waiting B fr' (rho n) -> (forall m cs, K m -> inputs A fr m cs -> inputs B fr' (rho m) cs) -> local_step sem ctx B fr' (apply B (rename a) fr').
  Proof.
    intros H. destruct H.
    - exists n, (Put n outs). go.
      intros fr' G Gp Kn Kb Hw Hin. eapply s_leaf; [exact Hw|apply Hin; [exact Kn|eassumption]|apply (r_leaf R); assumption|apply fits_rename; assumption].
    - exists n, (Enter n i ins). go.
      intros fr' G Gp Kn Kb Hw Hin. destruct (r_io R n i o Kn H1) as (Hio & Ki & Ko).
      eapply s_dfg_in with (n := rho n); [exact Hw|rewrite (r_ops R n Kn); eassumption|exact Hio|rewrite (G i Ki); exact H2|apply Hin; [exact Kn|eassumption]|apply fits_rename; assumption].
    - exists n, (Put n outs). go.
      intros fr' G Gp Kn Kb Hw Hin. destruct (r_io R n i o Kn H1) as (Hio & Ki & Ko).
      eapply s_dfg_out with (n := rho n); [exact Hw|rewrite (r_ops R n Kn); eassumption|exact Hio|rewrite (G i Ki); exact H2| |apply fits_rename; assumption].
      apply Hin; [exact Ko|assumption].
    - exists n, (Enter n i ins). go.
      intros fr' G Gp Kn Kb Hw Hin. destruct (r_io R n i o Kn H1) as (Hio & Ki & Ko).
      eapply s_loop_in with (n := rho n); [exact Hw|rewrite (r_ops R n Kn); eassumption|exact Hio|rewrite (G i Ki); exact H2|apply Hin; [exact Kn|eassumption]|apply fits_rename; assumption].
    - exists n, (Enter n i (cs ++ rest)). go.
      intros fr' G Gp Kn Kb Hw Hin. destruct (r_io R n i o Kn H1) as (Hio & Ki & Ko).
      eapply s_loop_again with (n := rho n); [exact Hw|rewrite (r_ops R n Kn); eassumption|exact Hio|rewrite (G i Ki); exact H2| |eassumption|apply fits_rename; assumption].
      apply Hin; [exact Ko|assumption].
    - exists n, (Put n (cs ++ rest)). go.
      intros fr' G Gp Kn Kb Hw Hin. destruct (r_io R n i o Kn H1) as (Hio & Ki & Ko).
      eapply s_loop_out with (n := rho n); [exact Hw|rewrite (r_ops R n Kn); eassumption|exact Hio|rewrite (G i Ki); exact H2| |eassumption|apply fits_rename; assumption].
      apply Hin; [exact Ko|assumption].
    - exists n, (Enter case i (cs ++ rest)). go.
      intros fr' G Gp Kn Kb Hw Hin. destruct (r_case R n _ _ _ k case Kn H0 H2 H3) as [Hk Kc]. destruct (r_io R case i o Kc H4) as (Hio & Ki & Ko).
      eapply s_cond_in with (n := rho n); [exact Hw|rewrite (r_ops R n Kn); eassumption|apply Hin; [exact Kn|eassumption]|exact Hk|rewrite (r_ops R case Kc); assumption|exact Hio|
        rewrite (G i Ki); assumption|eassumption|assumption|apply fits_rename; assumption].
    - exists n, (Put n outs). go.
      intros fr' G Gp Kn Kb Hw Hin. destruct (r_case R n _ _ _ k case Kn H0 H2 H3) as [Hk Kc]. destruct (r_io R case i o Kc H4) as (Hio & Ki & Ko).
      eapply s_cond_out with (n := rho n); [exact Hw|rewrite (r_ops R n Kn); eassumption|apply Hin; [exact Kn|eassumption]|exact Hk|rewrite (r_ops R case Kc); assumption|exact Hio|
        rewrite (G i Ki); assumption| |apply fits_rename; assumption].
      apply Hin; [exact Ko|assumption].
    - exists n, (Jump n e i ins). go.
      intros fr' G Gp Kn Kb Hw Hin. destruct (r_first R n _ e Kn H0 H2) as [Hk Ke]. destruct (r_io R e i o Ke H3) as (Hio & Ki & Ko).
      cbn [apply rename]. eapply s_cfg_in with (n := rho n); [exact Hw|rewrite (r_ops R n Kn); eassumption|rewrite Gp, H1; reflexivity|exact Hk|exact Hio|
        apply Hin; [exact Kn|eassumption]|apply fits_rename; assumption].
    - exists n, (Jump n t i' (cs ++ rest)). go.
      intros fr' G Gp Kn Kb Hw Hin. pose proof (Kb b H1) as Kbb. destruct (r_io R b i o Kbb H3) as (Hio & Ki & Ko).
      destruct (r_block R n _ t Kn H0 H8 H9) as [Hk Kt]. destruct (r_io R t i' o' Kt H10) as (Hio' & Ki' & Ko').
      cbn [apply rename]. eapply s_branch with (n := rho n) (b := rho b); [exact Hw|rewrite (r_ops R n Kn); eassumption|rewrite Gp, H1; reflexivity|rewrite (r_ops R b Kbb); eassumption|exact Hio| |eassumption|assumption|
        apply (r_next R); [exact Kbb|exact Kt|rewrite H2; reflexivity|eassumption]|exact Hk|rewrite (r_ops R t Kt); assumption|exact Hio'|apply fits_rename; assumption].
      apply Hin; [exact Ko|assumption].
    - exists n, (Finish n (cs ++ rest)). go.
      intros fr' G Gp Kn Kb Hw Hin. pose proof (Kb b H1) as Kbb. destruct (r_io R b i o Kbb H3) as (Hio & Ki & Ko). destruct (r_exit R n _ t Kn H0 H8) as [Hk Kt].
      cbn [apply rename]. eapply s_exit with (n := rho n) (b := rho b); [exact Hw|rewrite (r_ops R n Kn); eassumption|rewrite Gp, H1; reflexivity|rewrite (r_ops R b Kbb); eassumption|exact Hio| |eassumption|assumption|
        apply (r_next R); [exact Kbb|exact Kt|rewrite H2; reflexivity|eassumption]|exact Hk|apply fits_rename; assumption].
      apply Hin; [exact Ko|assumption].
    - exists n, (Put n outs). go.
      intros fr' G Gp Kn Kb Hw Hin. eapply s_call_value with (n := rho n); [exact Hw|rewrite (r_ops R n Kn); eassumption|apply Hin; [exact Kn|eassumption]|eassumption|apply fits_rename; assumption].
  Qed.
End Rename.
