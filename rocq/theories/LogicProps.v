(** Properties of the folders of boolean operations (claim C49). *)
From Coq Require Import ZArith List Bool Lia Permutation.
From Verif Require Import FloatModel LogicModel LogicSpec.
Import ListNotations.
Open Scope Z_scope.

(** The sets of known inputs. *)
Lemma known_cases op ks :
  known op ks ->
  ks = [] \/ (exists b, ks = [(0, b)]) \/
  (op <> Not /\ ((exists b, ks = [(1, b)]) \/
   (exists a b, ks = [(0, a); (1, b)]) \/ (exists a b, ks = [(1, b); (0, a)]))).
Proof.
  intros [ND R].
  assert (B : forall p b, In (p, b) ks -> p = 0 \/ (p = 1 /\ op <> Not)).
  { intros p b H. pose proof (R p b H) as L. destruct op; cbn in L; [| | |left; lia|];
      (assert (C : p = 0 \/ p = 1) by lia; destruct C; [left; assumption|right; split; [assumption|discriminate]]). }
  destruct ks as [|[p a] ks]; [left; reflexivity|right].
  pose proof (B p a (or_introl eq_refl)) as P.
  destruct ks as [|[q b] ks].
  - destruct P as [->|[-> N]]; [left; eauto|right; split; eauto].
  - pose proof (B q b (or_intror (or_introl eq_refl))) as Q.
    assert (PQ : p <> q) by (intros ->; inversion ND as [|? ? H _]; subst; apply H; left; reflexivity).
    assert (E : ks = []).
    { destruct ks as [|[r c] ks]; [reflexivity|exfalso].
      pose proof (B r c (or_intror (or_intror (or_introl eq_refl)))) as Rr.
      inversion ND as [|? ? H1 H2]; subst. inversion H2 as [|? ? H3 _]; subst. cbn in *.
      assert (p <> r) by (intros ->; apply H1; auto). assert (q <> r) by (intros ->; apply H3; auto). lia. }
    subst ks. right.
    destruct P as [->|[-> N]], Q as [->|[-> N']]; try contradiction; (split; [assumption|]); eauto 6.
Qed.

(** What the result is determined to be by the known inputs. *)
Definition determined (op : logic_op) (ks : list (Z * bool)) (b : bool) : Prop :=
  forall at_port, agrees at_port ks -> meaning op at_port = b.

Definition env (x y : bool) : Z -> bool := fun p => if p =? 0 then x else y.
Ltac agree := let H := fresh in intros ? ? H; cbn in H;
  repeat (destruct H as [H|H]; [injection H as <- <-; reflexivity|]); contradiction.

(** C49.  Conjunction, disjunction, negation and exclusive or are folded exactly when the constants
    determine the result, and to that result; equality of two constants is folded to the right
    result.  The order of the constants does not matter. *)
Theorem logic_fold_exact op ks b :
  known op ks -> (op = Eq -> length ks <> 1%nat) ->
  (logic_fold op (constants ks) = Some [(0, b)] <-> determined op ks b).
Proof.
  intros K NE. unfold determined.
  assert (S : forall (f : bool -> bool -> bool), (forall x y, f x y = b) -> f false false = b /\ f false true = b /\ f true false = b /\ f true true = b)
    by (intros f H; auto).
  destruct (known_cases op ks K) as [->|[(a & ->)|(N & [(a & ->)|[(a & c & ->)|(a & c & ->)]])]].
  - split.
    + destruct op; cbn; discriminate.
    + intros D. exfalso.
      assert (A : forall x y, agrees (env x y) []) by (intros x y p c []).
      pose proof (D _ (A true true)) as D1. pose proof (D _ (A false false)) as D2.
      pose proof (D _ (A true false)) as D3. destruct op, b; cbn in *; discriminate.
  - destruct op; try (exfalso; apply NE; reflexivity).
    all: split; [|intros D;
      assert (A : forall y, agrees (env a y) [(0, a)]) by (intros y; agree);
      pose proof (D _ (A true)) as D1; pose proof (D _ (A false)) as D2; destruct a, b; cbn in *; discriminate || reflexivity].
    all: intros E at_port AG; pose proof (AG 0 a (or_introl eq_refl)) as A0; cbn in E; unfold then_some in E;
      destruct a, b; cbn in E; try discriminate E; cbn [meaning]; rewrite A0; try reflexivity; try (destruct (at_port 1); reflexivity).
  - destruct op; try contradiction; try (exfalso; apply NE; reflexivity).
    all: split; [|intros D;
      assert (A : forall y, agrees (env y a) [(1, a)]) by (intros y; agree);
      pose proof (D _ (A true)) as D1; pose proof (D _ (A false)) as D2; destruct a, b; cbn in *; discriminate || reflexivity].
    all: intros E at_port AG; pose proof (AG 1 a (or_introl eq_refl)) as A0; cbn in E; unfold then_some in E;
      destruct a, b; cbn in E; try discriminate E; cbn [meaning]; rewrite A0; destruct (at_port 0); reflexivity.
  - destruct op; try contradiction.
    all: split; [intros E at_port AG; pose proof (AG 0 a (or_introl eq_refl)) as A0; pose proof (AG 1 c (or_intror (or_introl eq_refl))) as A1;
      cbn [meaning]; rewrite A0, A1; destruct a, c, b; cbn in *; discriminate || reflexivity|].
    all: intros D; assert (A : agrees (env a c) [(0, a); (1, c)]) by agree;
      pose proof (D _ A) as D1; destruct a, c, b; cbn in *; discriminate || reflexivity.
  - destruct op; try contradiction.
    all: split; [intros E at_port AG; pose proof (AG 1 c (or_introl eq_refl)) as A0; pose proof (AG 0 a (or_intror (or_introl eq_refl))) as A1;
      cbn [meaning]; rewrite A0, A1; destruct a, c, b; cbn in *; discriminate || reflexivity|].
    all: intros D; assert (A : agrees (env a c) [(1, c); (0, a)]) by agree;
      pose proof (D _ A) as D1; destruct a, c, b; cbn in *; discriminate || reflexivity.
Qed.
Print Assumptions logic_fold_exact.

(** Nothing else is ever folded: the result has one output, on port 0. *)
Theorem logic_fold_shape op cs r : logic_fold op cs = Some r -> exists b, r = [(0, b)].
Proof.
  unfold logic_fold, then_some. destruct (read_inputs cs) as [l|]; [|discriminate].
  destruct op; try (destruct (reduce Bool.eqb l); [|discriminate]);
    match goal with |- (if ?c then _ else _) = _ -> _ => destruct c end; intros E; inversion E; eauto.
Qed.
Print Assumptions logic_fold_shape.

(** The comment in the code says that equality can be folded to false when only some inputs are
    known.  One known input that is false is folded to false, although the result is not determined:
    it is true if the other input is false too. *)
Theorem logic_fold_eq_refuted :
  exists ks b at_port, known Eq ks /\ agrees at_port ks /\
    logic_fold Eq (constants ks) = Some [(0, b)] /\ meaning Eq at_port <> b.
Proof.
  exists [(0, false)], false, (fun _ => false). split; [split|split; [|split]].
  - constructor; [intros []|constructor].
  - intros p b [E|[]]. injection E as <- <-. cbn. lia.
  - intros p b [E|[]]. injection E as <- <-. reflexivity.
  - reflexivity.
  - discriminate.
Qed.
Print Assumptions logic_fold_eq_refuted.
(** It is the only wrong case: a single known input of an equality. *)
Theorem logic_fold_eq_single p a :
  p = 0 \/ p = 1 ->
  logic_fold Eq (constants [(p, a)]) = (if a then None else Some [(0, false)]) /\
  forall b, ~ determined Eq [(p, a)] b.
Proof.
  intros C. split; [destruct C as [-> | ->], a; reflexivity|].
  intros b D. destruct C as [-> | ->].
  - assert (A : forall y, agrees (env a y) [(0, a)]) by (intros y; agree).
    pose proof (D _ (A true)) as D1. pose proof (D _ (A false)) as D2. destruct a, b; discriminate.
  - assert (A : forall y, agrees (env y a) [(1, a)]) by (intros y; agree).
    pose proof (D _ (A true)) as D1. pose proof (D _ (A false)) as D2. destruct a, b; discriminate.
Qed.
Print Assumptions logic_fold_eq_single.

(** A constant that is no boolean stops the folding. *)
Theorem logic_fold_other op cs p : In (p, LOther) cs -> logic_fold op cs = None.
Proof.
  intros H. unfold logic_fold, read_inputs.
  assert (L : forall (x y : Z * lconst) (l : list (Z * lconst)), In y (insert_port x l) <-> y = x \/ In y l).
  { intros x y. induction l as [|z l IH]; cbn; [intuition auto|]. destruct (_ <=? _); cbn; [intuition auto|]. rewrite IH. intuition auto. }
  assert (S : In LOther (sorted_consts cs)).
  { unfold sorted_consts, sort_ports. change LOther with (snd (p, LOther)). apply in_map.
    induction cs as [|c cs IH]; [contradiction|]. cbn. apply L. destruct H as [->|H]; auto. }
  assert (B : forall l, In LOther l -> bools l = None).
  { induction l as [|c l IH]; [contradiction|]. intros [->|I]; [reflexivity|]. cbn. destruct c; [|reflexivity]. rewrite (IH I). reflexivity. }
  rewrite (B _ S). reflexivity.
Qed.
Print Assumptions logic_fold_other.

(** The emitted code computes the operation. *)
Theorem logic_emitted op (at_port : Z -> bool) :
  let tag (b : bool) : Z := if b then 1 else 0 in
  emit_logic op (map (fun p : Z => tag (at_port p)) (match op with Not => [0] | _ => [0; 1] end)) = Some (meaning op at_port).
Proof. destruct op; cbn; destruct (at_port 0); try destruct (at_port 1); reflexivity. Qed.
Print Assumptions logic_emitted.

Example logic_example :
  logic_fold And (constants [(1, false)]) = Some [(0, false)] /\
  logic_fold And (constants [(1, true)]) = None /\
  logic_fold Or (constants [(1, false); (0, true)]) = Some [(0, true)] /\
  logic_fold Xor (constants [(1, true); (0, true)]) = Some [(0, false)] /\
  logic_fold Not (constants [(0, true)]) = Some [(0, false)].
Proof. vm_compute. auto 10. Qed.
