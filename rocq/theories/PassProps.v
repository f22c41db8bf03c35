(** C41: what the pass combinators do, for all passes and all HUGRs. *)
From Coq Require Import List.
From Verif Require Import PassModel.
Import ListNotations.

(** Independent description: what one run of each combinator may do. *)
Section Spec.
  Context {H : Type}.
  Inductive seq_does {R1 R2 E1 E2 E} (f1 : E1 -> E) (f2 : E2 -> E)
      (p1 : pass H R1 E1) (p2 : pass H R2 E2) (h : H) : H -> res (R1 * R2) E -> Prop :=
  | sd_first h1 e : p1 h = (h1, RErr e) -> seq_does f1 f2 p1 p2 h h1 (RErr (f1 e))
  | sd_second h1 a h2 e : p1 h = (h1, ROk a) -> p2 h1 = (h2, RErr e) ->
      seq_does f1 f2 p1 p2 h h2 (RErr (f2 e))
  | sd_both h1 a h2 b : p1 h = (h1, ROk a) -> p2 h1 = (h2, ROk b) ->
      seq_does f1 f2 p1 p2 h h2 (ROk (a, b)).

  Inductive if_does {R E1 E2 E} (f1 : E1 -> E) (f2 : E2 -> E)
      (p1 : pass H bool E1) (p2 : pass H R E2) (h : H) : H -> res (option R) E -> Prop :=
  | id_first h1 e : p1 h = (h1, RErr e) -> if_does f1 f2 p1 p2 h h1 (RErr (f1 e))
  | id_skip h1 : p1 h = (h1, ROk false) -> if_does f1 f2 p1 p2 h h1 (ROk None)
  | id_second h1 h2 e : p1 h = (h1, ROk true) -> p2 h1 = (h2, RErr e) ->
      if_does f1 f2 p1 p2 h h2 (RErr (f2 e))
  | id_both h1 h2 b : p1 h = (h1, ROk true) -> p2 h1 = (h2, ROk b) ->
      if_does f1 f2 p1 p2 h h2 (ROk (Some b)).
End Spec.

Section Statements.
  Context {H : Type}.

  Theorem seq_meaning : forall R1 R2 E1 E2 E (f1 : E1 -> E) (f2 : E2 -> E)
      (p1 : pass H R1 E1) (p2 : pass H R2 E2) h h' r,
    seq f1 f2 p1 p2 h = (h', r) <-> seq_does f1 f2 p1 p2 h h' r.
  Proof.
    intros. unfold seq. split.
    - destruct (p1 h) as [h1 [a|e]] eqn:P1; cbn; [|intros [= <- <-]; now apply sd_first].
      destruct (p2 h1) as [h2 [b|e]] eqn:P2; cbn; intros [= <- <-].
      + eapply sd_both; eauto.
      + eapply sd_second; eauto.
    - intros D. destruct D as [h1 e P1|h1 a h2 e P1 P2|h1 a h2 b P1 P2]; rewrite P1; cbn;
        [|rewrite P2|rewrite P2]; reflexivity.
  Qed.

  Theorem if_then_meaning : forall R E1 E2 E (f1 : E1 -> E) (f2 : E2 -> E)
      (p1 : pass H bool E1) (p2 : pass H R E2) h h' r,
    if_then f1 f2 p1 p2 h = (h', r) <-> if_does f1 f2 p1 p2 h h' r.
  Proof.
    intros. unfold if_then. split.
    - destruct (p1 h) as [h1 [[|]|e]] eqn:P1; cbn.
      + destruct (p2 h1) as [h2 [b|e]] eqn:P2; cbn; intros [= <- <-].
        * eapply id_both; eauto.
        * eapply id_second; eauto.
      + intros [= <- <-]. now apply id_skip.
      + intros [= <- <-]. now apply id_first.
    - intros D. destruct D as [h1 e P1|h1 P1|h1 h2 e P1 P2|h1 h2 b P1 P2]; rewrite P1; cbn;
        [| |rewrite P2|rewrite P2]; reflexivity.
  Qed.

  (** Error mapping changes the error only: same HUGR, same result, mapped error. *)
  Theorem map_err_meaning : forall R E E2 (f : E -> E2) (p : pass H R E) h,
    fst (map_err p f h) = fst (p h) /\
    (forall a, snd (map_err p f h) = ROk a <-> snd (p h) = ROk a) /\
    (forall e', snd (map_err p f h) = RErr e' <-> exists e, snd (p h) = RErr e /\ e' = f e).
  Proof.
    intros. unfold map_err. destruct (p h) as [h' [a|e]]; cbn; repeat split; intros; try congruence.
    - destruct H0 as [e [F _]]. discriminate.
    - exists e. split; congruence.
    - destruct H0 as [e0 [F ->]]. congruence.
  Qed.

  (** The validating wrapper: succeeds exactly when the input is valid, the pass succeeds and the
      output is valid; a failing input is not touched; the three kinds of error say which. *)
  Theorem validating_meaning : forall R E V (validate : H -> option V) (p : pass H R E) h h' r,
    validating validate p h = (h', r) ->
    (forall a, r = ROk a <-> validate h = None /\ p h = (h', ROk a) /\ validate h' = None) /\
    (forall v, r = RErr (VInput v) <-> validate h = Some v) /\
    (forall v, r = RErr (VInput v) -> h' = h) /\
    (forall e, r = RErr (VUnderlying e) <-> validate h = None /\ p h = (h', RErr e)) /\
    (forall v, r = RErr (VOutput v) <->
       validate h = None /\ (exists a, p h = (h', ROk a)) /\ validate h' = Some v).
  Proof.
    intros R E V validate p h h' r. unfold validating.
    destruct (validate h) as [v|] eqn:V0.
    - intros [= <- <-]. repeat split; intros; try congruence; firstorder congruence.
    - destruct (p h) as [h1 [a|e]] eqn:P.
      + destruct (validate h1) as [v|] eqn:V1; intros [= <- <-];
          repeat split; intros; try congruence; try (firstorder congruence).
        exists a. reflexivity.
      + intros [= <- <-]. repeat split; intros; try congruence; firstorder congruence.
  Qed.

  (** Outside tests [validate_if_test] only wraps the error. *)
  Theorem validate_if_test_meaning : forall R E V (validate : H -> option V) (p : pass H R E) h,
    validate_if_test true validate p h = validating validate p h /\
    validate_if_test false validate p h = map_err p VUnderlying h.
  Proof.
    intros. split; [reflexivity|]. unfold validate_if_test, map_err.
    destruct (p h) as [h' [a|e]]; reflexivity.
  Qed.

  (** Sequencing three passes does the same whichever way it is grouped. *)
  Theorem seq_assoc : forall R1 R2 R3 E (p1 : pass H R1 E) (p2 : pass H R2 E) (p3 : pass H R3 E) h,
    let id := fun e : E => e in
    fst (seq id id (seq id id p1 p2) p3 h) = fst (seq id id p1 (seq id id p2 p3) h) /\
    snd (seq id id (seq id id p1 p2) p3 h) =
      match snd (seq id id p1 (seq id id p2 p3) h) with
      | ROk (a, (b, c)) => ROk ((a, b), c)
      | RErr e => RErr e
      end.
  Proof.
    intros. unfold seq. destruct (p1 h) as [h1 [a|e]]; cbn; [|auto].
    destruct (p2 h1) as [h2 [b|e]]; cbn; [|auto].
    destruct (p3 h2) as [h3 [c|e]]; cbn; auto.
  Qed.

  (** A pass that always succeeds and changes nothing is neutral. *)
  Theorem seq_unit : forall R E (p : pass H R E) h,
    let id := fun e : E => e in
    let skip := fun h : H => (h, @ROk unit E tt) in
    fst (seq id id skip p h) = fst (p h) /\ fst (seq id id p skip h) = fst (p h) /\
    (forall e, snd (seq id id skip p h) = RErr e <-> snd (p h) = RErr e) /\
    (forall e, snd (seq id id p skip h) = RErr e <-> snd (p h) = RErr e).
  Proof.
    intros. unfold seq, skip, id. cbn. destruct (p h) as [h1 [a|e]]; cbn;
      (split; [reflexivity|split; [reflexivity|split; intros e0; split; congruence]]).
  Qed.

  (** Validating each of two passes accepts exactly the runs that validating the whole accepts and
      in which the HUGR between them is valid too. *)
  Theorem validating_seq : forall R1 R2 E V (validate : H -> option V)
      (p1 : pass H R1 E) (p2 : pass H R2 E) h a b h2,
    let id := fun e : E => e in
    let idv := fun e : vperr V E => e in
    (seq idv idv (validating validate p1) (validating validate p2) h = (h2, ROk (a, b)) <->
     validating validate (seq id id p1 p2) h = (h2, ROk (a, b)) /\ validate (fst (p1 h)) = None).
  Proof.
    intros. unfold seq, validating, id, idv. destruct (validate h) as [v|] eqn:V0; cbn;
      [split; [intros F|intros [F _]]; inversion F|].
    destruct (p1 h) as [h1 [x|e]]; cbn; [|split; [intros F|intros [F _]]; inversion F].
    destruct (validate h1) as [v|] eqn:V1; cbn.
    - split; [congruence|]. intros [_ F]. congruence.
    - rewrite V1. destruct (p2 h1) as [h3 [y|e]]; cbn; [|split; [intros F|intros [F _]]; inversion F].
      destruct (validate h3); cbn; 
        (split; [intros F; inversion F; subst; split; reflexivity
                |intros [F _]; inversion F; subst; reflexivity]).
  Qed.
End Statements.

Print Assumptions seq_meaning.
Print Assumptions if_then_meaning.
Print Assumptions map_err_meaning.
Print Assumptions validating_meaning.
Print Assumptions validate_if_test_meaning.
Print Assumptions seq_assoc.
Print Assumptions seq_unit.
Print Assumptions validating_seq.

(** ** Examples *)
(** The HUGR is a number; valid means not above 10. *)
Definition ex_validate (h : nat) : option nat := if Nat.leb h 10 then None else Some h.
Definition ex_add (k : nat) : pass nat nat bool := fun h => (h + k, ROk h).
Definition ex_fail : pass nat nat bool := fun h => (S h, RErr true).

Example pass_examples :
  seq id id (ex_add 1) (ex_add 2) 3 = (6, ROk (3, 4)) /\
  seq id id (ex_add 1) ex_fail 3 = (5, RErr true) /\
  seq id id ex_fail (ex_add 2) 3 = (4, RErr true) /\
  seq id negb (ex_add 2) ex_fail 3 = (6, RErr false) /\
  validating ex_validate (ex_add 4) 8 = (12, RErr (VOutput 12)) /\
  validating ex_validate (ex_add 4) 11 = (11, RErr (VInput 11)) /\
  validating ex_validate ex_fail 3 = (4, RErr (VUnderlying true)) /\
  validating ex_validate (ex_add 4) 3 = (7, ROk 3) /\
  if_then id id (fun h => (S h, ROk (Nat.even h))) (ex_add 5) 4 = (10, ROk (Some 5)) /\
  if_then id id (fun h => (S h, ROk (Nat.even h))) (ex_add 5) 3 = (4, ROk None).
Proof. repeat split. Qed.
