(** C40: valid dotted names and splitting off their last component. *)
From Coq Require Import List Bool NArith Lia.
From Verif Require Import IdentModel IdentSpec IdentProofs.
Import ListNotations.

Section Statements.
  Variables word digit : N -> bool.

  (** A string is accepted exactly when it is a non-empty dot-separated list of words not starting
      with a digit; it is then taken as it is. *)
  Theorem ident_new_accepts_iff : forall s t,
    ident_new word digit s = Some t <-> t = s /\ is_path word digit s.
  Proof.
    intros s t. unfold ident_new. rewrite <- path_lang, <- re_match_ok.
    destruct (re_match (path_re word digit) s); split; try congruence.
    - intros [= <-]. auto.
    - intros [-> _]. reflexivity.
    - intros [_ F]. discriminate.
  Qed.

  Hypothesis dot_not_word : word 46%N = false.

  (** The decomposition into components is unique. *)
  Theorem ident_components_unique : forall cs ds,
    Forall (is_component word digit) cs -> Forall (is_component word digit) ds ->
    cs <> [] -> ds <> [] -> join_dots cs = join_dots ds -> cs = ds.
  Proof.
    intros cs. induction cs as [|c cs IH] using rev_ind; intros ds FC FD NC ND J; [easy|].
    destruct ds as [|d ds _] using rev_ind; [easy|].
    apply Forall_app in FC. destruct FC as [FC C]. apply Forall_inv in C.
    apply Forall_app in FD. destruct FD as [FD D]. apply Forall_inv in D.
    destruct cs as [|c0 cs], ds as [|d0 ds].
    - cbn in J. now subst.
    - exfalso. rewrite (join_snoc (d0 :: ds)) in J by easy. cbn in J. apply (component_no_dot word digit dot_not_word c C).
      rewrite J. apply in_app_iff. right. now left.
    - exfalso. rewrite (join_snoc (c0 :: cs)) in J by easy. change (join_dots ([] ++ [d])) with d in J.
      apply (component_no_dot word digit dot_not_word d D). rewrite <- J. apply in_app_iff. right. now left.
    - pose proof (split_join word digit dot_not_word (c0 :: cs) c ltac:(easy) C) as S1.
      pose proof (split_join word digit dot_not_word (d0 :: ds) d ltac:(easy) D) as S2.
      rewrite J, S2 in S1. injection S1 as J' ->. f_equal.
      symmetry in J'. apply IH; auto; easy.
  Qed.

  (** Splitting a valid name: it has a last component exactly when it has two or more; the parts
      are then all components but the last, and the last, so both are valid. *)
  Theorem split_last_components : forall cs c, Forall (is_component word digit) (cs ++ [c]) ->
    split_last (join_dots (cs ++ [c])) =
      match cs with [] => None | _ => Some (join_dots cs, c) end.
  Proof.
    intros cs c F. apply Forall_app in F. destruct F as [_ C]. apply Forall_inv in C.
    destruct cs as [|d cs].
    - apply rsplit_none. exact (component_no_dot word digit dot_not_word c C).
    - now apply (split_join word digit dot_not_word).
  Qed.

  Theorem split_last_valid : forall s p q, is_path word digit s -> split_last s = Some (p, q) ->
    s = p ++ 46%N :: q /\ is_path word digit p /\ is_component word digit q /\
    ident_new word digit p = Some p /\ ident_new word digit q = Some q.
  Proof.
    intros s p q (cs & NE & F & ->) S. destruct cs as [|c cs _] using rev_ind; [easy|].
    rewrite split_last_components in S by easy. destruct cs as [|d cs]; [discriminate|].
    injection S as <- <-. split; [apply join_snoc; easy|].
    apply Forall_app in F. destruct F as [FC C]. apply Forall_inv in C.
    assert (P : is_path word digit (join_dots (d :: cs))) by (exists (d :: cs); easy).
    split; [exact P|]. split; [exact C|]. split; apply ident_new_accepts_iff; split; auto.
    exists [c]. repeat split; auto. easy.
  Qed.

  (** Conversely, adding a component to a valid name gives a valid name that splits back. *)
  Theorem split_last_rejoin : forall p q, is_path word digit p -> is_component word digit q ->
    is_path word digit (p ++ 46%N :: q) /\ split_last (p ++ 46%N :: q) = Some (p, q).
  Proof.
    intros p q (cs & NE & F & ->) C. split.
    - exists (cs ++ [q]). split; [destruct cs; easy|]. split; [apply Forall_app; auto|].
      symmetry. now apply join_snoc.
    - apply rsplit_app. exact (component_no_dot word digit dot_not_word q C).
  Qed.
End Statements.

(** ASCII versions of the classes. *)
Definition ascii_digit (c : N) : bool := (N.leb 48 c && N.leb c 57)%bool.
Definition ascii_word (c : N) : bool :=
  (ascii_digit c || (N.leb 65 c && N.leb c 90) || (N.leb 97 c && N.leb c 122) || N.eqb c 95)%bool.

(** Not every value of the type is a valid name: deserialising takes any string, and so does the
    unchecked constructor up to 23 bytes. *)
Theorem ident_deserialize_valid_refuted :
  exists s, ident_deserialize s = Some s /\ new_unchecked s = Some s /\
            ident_new ascii_word ascii_digit s = None /\ ~ is_path ascii_word ascii_digit s.
Proof.
  exists [46; 46]%N. split; [reflexivity|]. split; [reflexivity|].
  assert (E : ident_new ascii_word ascii_digit [46; 46]%N = None) by reflexivity.
  split; [exact E|]. intros P.
  assert (A : ident_new ascii_word ascii_digit [46; 46]%N = Some [46; 46]%N)
    by (apply ident_new_accepts_iff; auto).
  congruence.
Qed.

(** The unchecked constructor keeps the string or panics, by length in bytes. *)
Theorem new_unchecked_iff : forall s t,
  new_unchecked s = Some t <-> t = s /\ (byte_len s <= 23)%N.
Proof.
  intros s t. unfold new_unchecked. destruct (N.leb_spec (byte_len s) 23); split; try congruence.
  - intros [= <-]. auto.
  - intros [-> _]. reflexivity.
  - intros [_ F]. lia.
Qed.

Print Assumptions ident_new_accepts_iff.
Print Assumptions ident_components_unique.
Print Assumptions split_last_components.
Print Assumptions split_last_valid.
Print Assumptions split_last_rejoin.
Print Assumptions ident_deserialize_valid_refuted.
Print Assumptions new_unchecked_iff.

(** ** Examples *)
(** "foo.b4r.baz", "foo", "4foo", "foo.", "foo..x", "". *)
Example ident_examples :
  ident_new ascii_word ascii_digit [102; 111; 111; 46; 98; 52; 114; 46; 98; 97; 122]%N
    = Some [102; 111; 111; 46; 98; 52; 114; 46; 98; 97; 122]%N /\
  split_last [102; 111; 111; 46; 98; 52; 114; 46; 98; 97; 122]%N
    = Some ([102; 111; 111; 46; 98; 52; 114]%N, [98; 97; 122]%N) /\
  split_last [102; 111; 111]%N = None /\
  ident_new ascii_word ascii_digit [52; 102; 111; 111]%N = None /\
  ident_new ascii_word ascii_digit [102; 111; 111; 46]%N = None /\
  ident_new ascii_word ascii_digit [102; 46; 46; 120]%N = None /\
  ident_new ascii_word ascii_digit [] = None /\
  is_path ascii_word ascii_digit [95; 46; 120; 57]%N /\
  ascii_word 46 = false.
Proof.
  repeat split. apply (ident_new_accepts_iff ascii_word ascii_digit _ [95; 46; 120; 57]%N).
  reflexivity.
Qed.
