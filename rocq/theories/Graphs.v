(** Finite directed graphs: paths, acyclicity, sources, orders of the nodes. *)
From Coq Require Import List Bool Arith Lia Relations.
Import ListNotations.

Section Rel.
  Context {A : Type}.
  Definition path (E : A -> A -> Prop) : A -> A -> Prop := clos_trans A E.
  Definition acyclic (E : A -> A -> Prop) : Prop := forall x, ~ path E x x.

  (** In an acyclic graph every non-empty finite set has a member without predecessor in the set. *)
  Lemma acyclic_source (S : list A) : forall E : A -> A -> Prop,
    (forall a b, E a b \/ ~ E a b) -> acyclic E -> S <> [] ->
    exists m, In m S /\ forall p, In p S -> ~ E p m.
  Proof.
    induction S as [|x S IH]; intros E DEC AC NE; [easy|].
    destruct S as [|y S].
    - exists x. split; [now left|]. intros p [<-|[]] F. apply (AC x). now apply t_step.
    - set (E' := fun a b => E a b \/ (E a x /\ E x b)).
      destruct (IH E') as (m & IM & NM); [| |easy|].
      + intros a b. unfold E'. destruct (DEC a b), (DEC a x), (DEC x b); tauto.
      + assert (P : forall a b, path E' a b -> path E a b).
        { intros a b T. induction T as [a b [T|[T1 T2]]|a b c _ T1 _ T2].
          - now apply t_step.
          - eapply t_trans; apply t_step; eassumption.
          - eapply t_trans; eassumption. }
        intros z C. apply (AC z). now apply P.
      + destruct (DEC x m) as [XM|XM].
        * exists x. split; [now left|]. intros p [<-|I] F.
          -- apply (AC x). now apply t_step.
          -- apply (NM p I). right. auto.
        * exists m. split; [now right|]. intros p [<-|I] F; [auto|]. apply (NM p I). now left.
  Qed.

  Lemma path_mono (E F : A -> A -> Prop) : (forall a b, E a b -> F a b) ->
    forall a b, path E a b -> path F a b.
  Proof.
    intros M a b P. induction P as [a b H|a b c _ P1 _ P2].
    - apply t_step. auto.
    - eapply t_trans; eassumption.
  Qed.

  (** A graph with a numbering that increases along edges is acyclic. *)
  Lemma numbering_acyclic (E : A -> A -> Prop) (f : A -> nat) :
    (forall a b, E a b -> f a < f b) -> acyclic E.
  Proof.
    intros M x P. assert (L : forall a b, path E a b -> f a < f b).
    { intros a b T. induction T as [a b T|a b c _ T1 _ T2]; [auto|lia]. }
    specialize (L x x P). lia.
  Qed.

  (** [a] occurs before [b]. *)
  Definition before (l : list A) (a b : A) : Prop := exists l1 l2 l3, l = l1 ++ a :: l2 ++ b :: l3.

  Lemma before_In l a b : before l a b -> In a l /\ In b l.
  Proof.
    intros (l1 & l2 & l3 & ->). split; rewrite in_app_iff; right; [now left|].
    right. rewrite in_app_iff. right. now left.
  Qed.

  Lemma before_cons x l a b : before l a b -> before (x :: l) a b.
  Proof. intros (l1 & l2 & l3 & ->). exists (x :: l1), l2, l3. reflexivity. Qed.

  Lemma before_head x l b : In b l -> before (x :: l) x b.
  Proof.
    intros I. apply in_split in I. destruct I as (l2 & l3 & ->). exists [], l2, l3. reflexivity.
  Qed.

  Lemma before_app_r l m a b : before m a b -> before (l ++ m) a b.
  Proof. intros B. induction l; [exact B|]. now apply before_cons. Qed.

  Lemma before_app_l l m a b : before l a b -> before (l ++ m) a b.
  Proof.
    intros (l1 & l2 & l3 & ->). exists l1, l2, (l3 ++ m). now rewrite <- !app_assoc, <- !app_comm_cons, <- app_assoc.
  Qed.

  Lemma before_app l m a b : In a l -> In b m -> before (l ++ m) a b.
  Proof.
    intros IA IB. apply in_split in IA. destruct IA as (l1 & l2 & ->).
    apply in_split in IB. destruct IB as (m1 & m2 & ->). exists l1, (l2 ++ m1), m2.
    now rewrite <- !app_assoc.
  Qed.

  Lemma before_cons_inv x l a b : before (x :: l) a b -> (a = x /\ In b l) \/ before l a b.
  Proof.
    intros (l1 & l2 & l3 & E). destruct l1 as [|y l1]; cbn in E; injection E as -> ->.
    - left. split; [reflexivity|]. rewrite in_app_iff. right. now left.
    - right. exists l1, l2, l3. reflexivity.
  Qed.

  Lemma before_total (DA : forall a b : A, {a = b} + {a <> b}) l a b :
    In a l -> In b l -> a <> b -> before l a b \/ before l b a.
  Proof.
    induction l as [|x l IH]; intros IA IB NE; [easy|].
    destruct IA as [->|IA], IB as [->|IB]; try congruence.
    - left. now apply before_head.
    - right. now apply before_head.
    - destruct (IH IA IB NE); [left|right]; now apply before_cons.
  Qed.

  Lemma before_asym l a b : NoDup l -> before l a b -> before l b a -> False.
  Proof.
    induction l as [|x l IH]; intros ND B1 B2.
    - destruct B1 as ([|] & ? & ? & E); discriminate.
    - inversion ND; subst. apply before_cons_inv in B1. apply before_cons_inv in B2.
      destruct B1 as [[-> I1]|B1], B2 as [[-> I2]|B2]; auto.
      + apply before_In in B2. tauto.
      + apply before_In in B1. tauto.
  Qed.

  (** Edges that go forward in a duplicate-free list form an acyclic graph. *)
  Lemma before_acyclic (DA : forall a b : A, {a = b} + {a <> b}) l (E : A -> A -> Prop) :
    NoDup l -> (forall a b, E a b -> before l a b) -> acyclic E.
  Proof.
    intros ND M.
    set (pos := fix pos (l : list A) (a : A) : nat :=
           match l with [] => 0 | x :: t => if DA x a then 0 else S (pos t a) end).
    apply (numbering_acyclic E (pos l)). intros a b H. apply M in H. clear M.
    induction l as [|x l IH].
    - destruct H as ([|] & ? & ? & F); discriminate.
    - inversion ND; subst. apply before_cons_inv in H. cbn. destruct H as [[-> I]|B].
      + destruct (DA x x); [|congruence]. destruct (DA x b); [subst; tauto|lia].
      + destruct (before_In _ _ _ B) as [IA IB].
        destruct (DA x a); [subst; tauto|]. destruct (DA x b); [subst; tauto|].
        apply IH in B; auto. lia.
  Qed.
End Rel.

(** Graphs given by edge lists. *)
Definition edge_rel {A : Type} (es : list (A * A)) (a b : A) : Prop := In (a, b) es.

Lemma edge_rel_dec {A : Type} (DA : forall a b : A, {a = b} + {a <> b}) (es : list (A * A)) a b :
  edge_rel es a b \/ ~ edge_rel es a b.
Proof.
  unfold edge_rel. destruct (in_dec (fun p q : A * A => ltac:(decide equality)) (a, b) es); auto.
Qed.
