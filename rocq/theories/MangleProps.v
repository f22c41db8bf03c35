(** C32: monomorphised names. *)
From Coq Require Import List NArith Lia.
From Verif Require Import MangleModel MangleSpec MangleProofs.
Import ListNotations.
Open Scope N_scope.

Section Statements.
  Variable T : Type.
  Variable show_type : T -> list N.
  Notation mangle := (mangle_name T show_type).

  (** A name is made exactly when no variable or unhandled term occurs. *)
  Theorem mangle_total_iff : forall name args,
    (exists s, mangle name args = Some s) <-> Forall (closed_arg T) args.
  Proof.
    intros name args. rewrite <- (write_args_closed_iff T show_type). unfold mangle_name.
    destruct (write_args T show_type args); split; intros [s E]; eauto; discriminate.
  Qed.

  (** Instances of functions with different names never collide, whatever the names and
      arguments. *)
  Theorem mangle_names_distinct : forall name1 args1 name2 args2 s,
    mangle name1 args1 = Some s -> mangle name2 args2 = Some s ->
    name1 = name2 /\ write_args T show_type args1 = write_args T show_type args2.
  Proof.
    unfold mangle_name. intros name1 args1 name2 args2 s E1 E2.
    destruct (write_args T show_type args1) as [s1|] eqn:W1; [|discriminate].
    destruct (write_args T show_type args2) as [s2|] eqn:W2; [|discriminate].
    injection E1 as <-. injection E2 as E2. symmetry in E2. apply escape_name_unique in E2.
    - destruct E2 as [-> ->]. auto.
    - eapply write_args_shape; eassumption.
    - eapply write_args_shape; eassumption.
  Qed.

  Section Injective.
    (** Different types are shown differently. *)
    Hypothesis show_inj : forall t u, show_type t = show_type u -> t = u.

    (** Partial: arguments that are types, numbers or strings only; any strings. *)
    Theorem mangle_injective_flat_partial : forall name1 args1 name2 args2 s,
      Forall (flat_arg T) args1 -> Forall (flat_arg T) args2 ->
      mangle name1 args1 = Some s -> mangle name2 args2 = Some s ->
      name1 = name2 /\ args1 = args2.
    Proof.
      intros name1 args1 name2 args2 s F1 F2 E1 E2.
      destruct (mangle_names_distinct _ _ _ _ _ E1 E2) as [N A]. split; [exact N|].
      unfold mangle_name in *. destruct (write_args T show_type args1) as [s1|] eqn:W1; [|discriminate].
      eapply flat_unique; eauto.
    Qed.

    (** Partial: lists and tuples too, if the brackets in every string and shown type match. *)
    Theorem mangle_injective_balanced_partial : forall name1 args1 name2 args2 s,
      Forall (balanced_arg T show_type) args1 -> Forall (balanced_arg T show_type) args2 ->
      mangle name1 args1 = Some s -> mangle name2 args2 = Some s ->
      name1 = name2 /\ args1 = args2.
    Proof.
      intros name1 args1 name2 args2 s F1 F2 E1 E2.
      destruct (mangle_names_distinct _ _ _ _ _ E1 E2) as [N A]. split; [exact N|].
      unfold mangle_name in *. destruct (write_args T show_type args1) as [s1|] eqn:W1; [|discriminate].
      eapply balanced_unique; eauto.
    Qed.
  End Injective.

  (** In general not: a bracket in a string is not escaped.  ["a)", "b"] as one list, against the
      list ["a"] and the string "b)". *)
  Theorem mangle_injective_refuted :
    exists name args1 args2 s, args1 <> args2 /\
      Forall (closed_arg T) args1 /\ Forall (closed_arg T) args2 /\
      mangle name args1 = Some s /\ mangle name args2 = Some s.
  Proof.
    exists [102], [AList [AString [97; 41]; AString [98]]], [AList [AString [97]]; AString [98; 41]].
    eexists. split; [discriminate|]. split; [repeat constructor|]. split; [repeat constructor|].
    split; reflexivity.
  Qed.
End Statements.

(** Types of the same name from different extensions are shown alike, so instances at them collide. *)
Theorem mangle_extension_types_refuted :
  exists name t u s, t <> u /\ ct_ext t <> ct_ext u /\
    mangle_name ctype show_ctype name [ARuntime t] = Some s /\
    mangle_name ctype show_ctype name [ARuntime u] = Some s.
Proof.
  exists [102], {| ct_ext := [97]; ct_id := [113]; ct_args := [] |},
               {| ct_ext := [98]; ct_id := [113]; ct_args := [] |}.
  eexists. split; [discriminate|]. split; [discriminate|]. split; reflexivity.
Qed.

Print Assumptions mangle_total_iff.
Print Assumptions mangle_names_distinct.
Print Assumptions mangle_injective_flat_partial.
Print Assumptions mangle_injective_balanced_partial.
Print Assumptions mangle_injective_refuted.
Print Assumptions mangle_extension_types_refuted.

(** ** Examples *)
(** The name "a$b" with the string "x$", the number 17 and the list of "(y)" (that is
    "$a\$b$$s(x\$)$n(17)$list($s((y)))"). *)
Example mangle_example :
  mangle_name ctype show_ctype [97; 36; 98] [AString [120; 36]; ANat 17; AList [AString [40; 121; 41]]]
  = Some [36; 97; 92; 36; 98; 36; 36; 115; 40; 120; 92; 36; 41; 36; 110; 40; 49; 55; 41; 36;
          108; 105; 115; 116; 40; 36; 115; 40; 40; 121; 41; 41; 41].
Proof. reflexivity. Qed.

(** The side conditions hold of it, so it is determined among such arguments. *)
Example mangle_example_balanced :
  Forall (balanced_arg ctype show_ctype) [AString [120; 36]; ANat 17; AList [AString [40; 121; 41]]].
Proof.
  constructor; [|constructor; [|constructor; [|constructor]]].
  - constructor. repeat (apply bal_char; [discriminate|discriminate|]). constructor.
  - constructor.
  - constructor. constructor; [|constructor]. constructor. apply (bal_pair [121] []); [|constructor].
    apply bal_char; [discriminate|discriminate|constructor].
Qed.

(** Names that end in a backslash or a dollar are told apart. *)
Example mangle_backslash :
  mangle_name ctype show_ctype [97; 92] [ANat 1] <> mangle_name ctype show_ctype [97; 36] [ANat 1] /\
  mangle_name ctype show_ctype [97; 92] [] <> mangle_name ctype show_ctype [97; 36] [].
Proof. split; discriminate. Qed.
