From Coq Require Import List Bool NArith Lia.
From Verif Require Import IdentModel IdentSpec.
Import ListNotations.

(** The language of a regular expression. *)
Inductive lang : re -> list N -> Prop :=
| l_eps : lang REps []
| l_cls p c : p c = true -> lang (RCls p) [c]
| l_seq r s u v : lang r u -> lang s v -> lang (RSeq r s) (u ++ v)
| l_alt1 r s u : lang r u -> lang (RAlt r s) u
| l_alt2 r s u : lang s u -> lang (RAlt r s) u
| l_star0 r : lang (RStar r) []
| l_star1 r u v : lang r u -> lang (RStar r) v -> lang (RStar r) (u ++ v).

Lemma nullable_ok r : nullable r = true <-> lang r [].
Proof.
  induction r; cbn.
  - split; [discriminate|]. intros L. inversion L.
  - split; [constructor|reflexivity].
  - split; [discriminate|]. intros L. inversion L.
  - rewrite andb_true_iff, IHr1, IHr2. split.
    + intros [A B]. apply (l_seq _ _ [] [] A B).
    + intros L. inversion L; subst.
      match goal with E : _ ++ _ = [] |- _ => apply app_eq_nil in E; destruct E; subst end. auto.
  - rewrite orb_true_iff, IHr1, IHr2. split.
    + intros [A|A]; [now apply l_alt1|now apply l_alt2].
    + intros L. inversion L; subst; auto.
  - split; [constructor|reflexivity].
Qed.

Lemma star_cons r c t : lang (RStar r) (c :: t) ->
  exists u v, t = u ++ v /\ lang r (c :: u) /\ lang (RStar r) v.
Proof.
  remember (RStar r) as R eqn:HR. remember (c :: t) as w eqn:HW. intros L.
  induction L as [| | | | | |r' u v A _ B IH]; try discriminate.
  injection HR as ->. destruct u as [|d u].
  - apply IH; [reflexivity|exact HW].
  - cbn in HW. injection HW as -> <-. exists u, v. auto.
Qed.

Lemma deriv_ok c r : forall s, lang (deriv c r) s <-> lang r (c :: s).
Proof.
  induction r; intros s; cbn.
  - split; intros L; inversion L.
  - split; intros L; inversion L.
  - destruct (p c) eqn:P.
    + split; intros L; inversion L; subst; constructor; auto.
    + split; intros L; inversion L; subst. congruence.
  - assert (A : lang (RSeq (deriv c r1) r2) s -> lang (RSeq r1 r2) (c :: s)).
    { intros L. inversion L; subst. apply (l_seq r1 r2 (c :: u) v); auto. now apply IHr1. }
    assert (B : lang (RSeq r1 r2) (c :: s) ->
                lang (RSeq (deriv c r1) r2) s \/ (lang r1 [] /\ lang r2 (c :: s))).
    { intros L. inversion L as [| |? ? u v L1 L2 Hr Hs| | | |]; subst. destruct u as [|d u].
      - right. cbn in *. subst. auto.
      - left. cbn in *. injection Hs as -> <-. constructor; auto. now apply IHr1. }
    destruct (nullable r1) eqn:NL.
    + apply nullable_ok in NL. split.
      * intros L. inversion L; subst; auto. apply (l_seq r1 r2 [] (c :: s)); auto. now apply IHr2.
      * intros L. destruct (B L) as [L'|[_ L']]; [now apply l_alt1|].
        apply l_alt2. now apply IHr2.
    + split; [exact A|]. intros L. destruct (B L) as [L'|[L' _]]; auto.
      apply nullable_ok in L'. congruence.
  - split; intros L; inversion L; subst.
    + apply l_alt1. now apply IHr1.
    + apply l_alt2. now apply IHr2.
    + apply l_alt1. now apply IHr1.
    + apply l_alt2. now apply IHr2.
  - split; intros L.
    + inversion L; subst. apply (l_star1 r (c :: u) v); auto. now apply IHr.
    + apply star_cons in L. destruct L as (u & v & -> & L1 & L2). constructor; auto. now apply IHr.
Qed.

Lemma re_match_ok s : forall r, re_match r s = true <-> lang r s.
Proof.
  induction s as [|c t IH]; intros r; cbn.
  - apply nullable_ok.
  - rewrite IH. apply deriv_ok.
Qed.

Section Ident.
  Variables word digit : N -> bool.
  Hypothesis dot_not_word : word dot = false.

  Lemma star_word s : lang (RStar (RCls word)) s <-> (forall d, In d s -> word d = true).
  Proof.
    split.
    - remember (RStar (RCls word)) as R eqn:HR. intros L.
      induction L as [| | | | | |r u v A _ B IH]; try discriminate.
      + intros d [].
      + injection HR as ->. inversion A; subst. intros d [->|I]; auto.
    - induction s as [|c t IH]; intros A.
      + constructor.
      + apply (l_star1 _ [c] t); [constructor; apply A; now left|]. apply IH. intros d I. apply A.
        now right.
  Qed.

  Lemma component_lang s : lang (component_re word digit) s <-> is_component word digit s.
  Proof.
    unfold component_re, is_component. split.
    - intros L. inversion L as [| |? ? u v L1 L2| | | |]; subst. inversion L1 as [|p c P| | | | |]; subst.
      apply andb_true_iff in P. destruct P as [W D]. apply negb_true_iff in D.
      exists c, v. repeat split; auto. now apply star_word.
    - intros (c & t & -> & W & D & A). apply (l_seq _ _ [c] t).
      + constructor. now rewrite W, D.
      + now apply star_word.
  Qed.

  (** What follows the first component. *)
  Definition tail_dots (cs : list (list N)) : list N := concat (map (fun c => dot :: c) cs).

  Lemma join_tail c cs : join_dots (c :: cs) = c ++ tail_dots cs.
  Proof.
    revert c. induction cs as [|d cs IH]; intros c.
    - cbn. now rewrite app_nil_r.
    - change (join_dots (c :: d :: cs)) with (c ++ 46%N :: join_dots (d :: cs)).
      rewrite IH. reflexivity.
  Qed.

  Lemma star_tail s :
    lang (RStar (RSeq (RCls (N.eqb dot)) (component_re word digit))) s <->
    exists cs, Forall (is_component word digit) cs /\ s = tail_dots cs.
  Proof.
    split.
    - remember (RStar _) as R eqn:HR. intros L.
      induction L as [| | | | | |r u v A _ B IH]; try discriminate.
      + exists []. auto.
      + injection HR as ->. destruct (IH eq_refl) as (cs & F & ->).
        inversion A as [| |? ? u1 u2 L1 L2| | | |]; subst. inversion L1 as [|p c P| | | | |]; subst.
        apply N.eqb_eq in P. subst c. exists (u2 :: cs). split.
        * constructor; auto. now apply component_lang.
        * reflexivity.
    - intros (cs & F & ->). induction F as [|c cs C F IH]; [constructor|].
      apply (l_star1 _ (dot :: c) (tail_dots cs)); auto.
      apply (l_seq _ _ [dot] c); [constructor; apply N.eqb_refl|now apply component_lang].
  Qed.

  Lemma path_lang s : lang (path_re word digit) s <-> is_path word digit s.
  Proof.
    unfold path_re, is_path. split.
    - intros L. inversion L as [| |? ? u v L1 L2| | | |]; subst. apply component_lang in L1.
      apply star_tail in L2. destruct L2 as (cs & F & ->). exists (u :: cs).
      split; [discriminate|split; [now constructor|]]. now rewrite join_tail.
    - intros (cs & NE & F & ->). destruct cs as [|c cs]; [easy|]. rewrite join_tail.
      inversion F; subst. constructor; [now apply component_lang|]. apply star_tail. eauto.
  Qed.

  Lemma component_no_dot s : is_component word digit s -> ~ In dot s.
  Proof.
    intros (c & t & -> & W & D & A) [E|I].
    - subst. congruence.
    - apply A in I. congruence.
  Qed.

  Lemma rsplit_none s : rsplit_once s = None <-> ~ In dot s.
  Proof. clear.
    induction s as [|c t IH]; cbn; [intuition|].
    destruct (rsplit_once t) as [[p q]|] eqn:R.
    - split; [discriminate|]. intros NI. assert (F : Some (p, q) = None) by (apply IH; intuition).
      discriminate.
    - assert (NT : ~ In dot t) by (now apply IH). destruct (N.eqb_spec c dot) as [->|NE].
      + split; [discriminate|]. intuition.
      + split; [|reflexivity]. intros _ [E|I]; auto.
  Qed.

  Lemma rsplit_app p q : ~ In dot q -> rsplit_once (p ++ dot :: q) = Some (p, q).
  Proof. clear.
    intros NI. induction p as [|c p IH]; cbn.
    - apply rsplit_none in NI. now rewrite NI.
    - now rewrite IH.
  Qed.

  Lemma rsplit_some s p q : rsplit_once s = Some (p, q) -> s = p ++ dot :: q /\ ~ In dot q.
  Proof. clear.
    revert p. induction s as [|c t IH]; intros p; cbn; [discriminate|].
    destruct (rsplit_once t) as [[p' q']|] eqn:R.
    - intros [= <- <-]. destruct (IH p' eq_refl) as [-> NI]. auto.
    - destruct (N.eqb_spec c dot) as [->|NE]; [|discriminate]. intros [= <- <-].
      split; [reflexivity|]. now apply rsplit_none.
  Qed.

  Lemma join_snoc cs c : cs <> [] -> join_dots (cs ++ [c]) = join_dots cs ++ dot :: c.
  Proof.
    destruct cs as [|d cs]; [easy|]. intros _. cbn [app]. rewrite !join_tail, <- app_assoc. f_equal.
    unfold tail_dots. rewrite map_app, concat_app. cbn. now rewrite app_nil_r.
  Qed.

  Lemma split_join cs c : cs <> [] -> is_component word digit c ->
    split_last (join_dots (cs ++ [c])) = Some (join_dots cs, c).
  Proof.
    intros NE C. rewrite join_snoc by easy. apply rsplit_app. now apply component_no_dot.
  Qed.
End Ident.
