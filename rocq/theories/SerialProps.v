(** Theorems about the serial form of a HUGR (C25). *)
From Coq Require Import List Bool NArith Arith Lia Permutation.
From Verif Require Import TypesModel GraphModel GraphSpec GraphProofs GraphBfs InsertSpec OpModel OpProps CanonModel CanonProofs CanonProps
  SeqProofs SerialModel SerialSpec SerialProofs.
Import ListNotations.

(** Writing a graph and reading it back gives the same graph, numbered in the canonical order. *)
Theorem serial_roundtrip : forall {M} main (h : hugr op M), wf h -> ports_match h -> h_ops h (h_root h) = OModule ->
  exists s h' f, encode h = Some s /\ decode main s = DOk h' /\ same_graph f ser_op h h' /\ wf h' /\
    (forall k n, nth_error (descendants h (h_root h)) k = Some n -> f n = N.of_nat k) /\
    (forall n, ~ In n (h_nodes h') -> h_meta h' n = None).
Proof.
  intros M main h W P R. destruct (roundtrip h W P main R) as (s & h' & A & B & C & D & _ & E & F).
  exists s, h', (place h). auto 10.
Qed.
Print Assumptions serial_roundtrip.

(** The links of every outgoing port keep their order. *)
Theorem serial_link_order : forall {M} main (h : hugr op M), wf h -> ports_match h -> h_ops h (h_root h) = OModule ->
  exists s h' f, encode h = Some s /\ decode main s = DOk h' /\ same_graph f ser_op h h' /\
    forall n i, In n (h_nodes h) -> linked_inputs h' (f n) i = map (fun e => (f (fst e), snd e)) (linked_inputs h n i).
Proof.
  intros M main h W P R. destruct (roundtrip h W P main R) as (s & h' & A & B & C & D & L & _).
  exists s, h', (place h). split; [exact A|]. split; [exact B|]. split; [exact C|]. intros n i I.
  unfold linked_inputs. rewrite L. rewrite <- (listed_port h W n i I).
  assert (Src : forall l, In l (listed h) -> In (fst (fst l)) (h_nodes h)).
  { intros l J. apply (Permutation_in _ (listed_perm h W)) in J. apply (wf_links h W l J). }
  clear L. induction (listed h) as [|[[a b] [c d]] ls IH]; [reflexivity|]. cbn [map filter move_link fst snd].
  assert (E : ep_eqb (place h a, b) (place h n, i) = ep_eqb (a, b) (n, i)).
  { unfold ep_eqb. cbn [fst snd]. f_equal. destruct (N.eqb_spec a n) as [->|Ne]; [apply N.eqb_refl|]. apply N.eqb_neq. intros X. apply Ne.
    apply (place_inj h W); auto. apply (Src ((a, b), (c, d))). now left. }
  rewrite E. assert (Src' : forall l, In l ls -> In (fst (fst l)) (h_nodes h)) by (intros l J; apply Src; now right).
  destruct (ep_eqb (a, b) (n, i)); cbn [map snd]; [f_equal|]; exact (IH Src').
Qed.
Print Assumptions serial_link_order.

(** A graph that is numbered canonically keeps its indices. *)
Theorem serial_canonical_indices : forall {M} main (h : hugr op M), wf h -> ports_match h -> h_ops h (h_root h) = OModule ->
  descendants h (h_root h) = map N.of_nat (seq 0 (length (h_nodes h))) ->
  exists s h', encode h = Some s /\ decode main s = DOk h' /\ same_graph (fun n => n) ser_op h h'.
Proof.
  intros M main h W P R C. destruct (roundtrip h W P main R) as (s & h' & A & B & S & D & L & E & F).
  exists s, h'. split; [exact A|]. split; [exact B|].
  assert (Id : forall n, In n (h_nodes h) -> place h n = n).
  { intros n I. apply (proj1 (proj2 (canonical_spec h W))) in I. apply In_nth_error in I. destruct I as [k Ek].
    rewrite (E k n Ek). rewrite C in Ek. rewrite nth_error_map in Ek. destruct (nth_error (seq 0 _) k) as [v|] eqn:Ev; [|discriminate].
    injection Ek as <-. f_equal. assert (Lk : k < length (h_nodes h)).
    { rewrite <- (seq_length (length (h_nodes h)) 0). apply nth_error_Some. congruence. }
    apply nth_error_nth with (d := 0) in Ev. rewrite seq_nth in Ev by exact Lk. exact Ev. }
  assert (Lk : forall l, In l (h_links h) -> move_link (place h) l = move_link (fun n => n) l).
  { intros [[a b] [c d]] I. destruct (wf_links h W _ I) as [[X _] [Y _]]. unfold move_link. cbn [fst snd] in *. now rewrite !Id. }
  destruct S. constructor; auto.
  - intros m. rewrite sg_nodes. split; intros (n & I & ->); exists n; (split; [exact I|]); [|symmetry]; auto.
  - intros n I. rewrite <- (Id n I) at 1. auto.
  - intros n I. rewrite <- (Id n I) at 1. auto.
  - intros n I. rewrite <- (Id n I) at 1. auto.
  - intros n I. rewrite <- (Id n I) at 1. auto.
  - intros n I. rewrite <- (Id n I) at 1. rewrite sg_parent by exact I. destruct (h_parent h n) as [p|] eqn:Ep; [|reflexivity]. cbn [option_map].
    f_equal. apply Id. apply (wf_parent_live h W n p Ep).
  - intros n I. rewrite <- (Id n I) at 1. rewrite sg_kids by exact I. rewrite map_id. rewrite <- (map_id (h_kids h n)) at 2. apply map_ext_in.
    intros c Ic. apply Id. apply (wf_kids h W) in Ic. apply (wf_parent_live h W c n Ic).
  - rewrite sg_root. apply Id. apply (wf_root h W).
  - rewrite sg_entry. apply Id. apply (wf_entry h W).
  - eapply Permutation_trans; [exact sg_links|]. apply Permutation_refl'. apply map_ext_in. exact Lk.
Qed.
Print Assumptions serial_canonical_indices.

(** Reading any data in which parents come before their children gives a well formed graph, an error, or
    a panic for one of three reasons. *)
Theorem serial_decode_sound : forall {M} main (s : ser M) r ns, s_nodes s = r :: ns -> earlier 1 ns ->
  match decode main s with
  | DOk h => wf h /\ ports_match h
  | DErr _ => True
  | DPanic => (exists e, s_entry s = Some e /\ N.of_nat (length (s_nodes s)) <= e)%N \/
              (exists n k d o e1 e2, In (e1, e2) (s_edges s) /\ (n, Some k) = (match d with Out => e1 | Inc => e2 end) /\
                 nth_error (map ns_op (s_nodes s)) (N.to_nat n) = Some o /\ port_count o d <= k)
  end.
Proof.
  intros M main s r ns Es Ea. unfold decode. rewrite Es. destruct (N.eqb_spec (ns_parent r) 0) as [E0|]; [|exact I]. cbn [negb].
  destruct (new_graph_total (M := M) main (ns_op r)) as (res & Em & _). rewrite Em. destruct res as [h|]; [|exact I].
  destruct (make_module_dense main _ h Em) as (W & P & D & X & Eo).
  destruct (add_rest_wf ns h (h_entry h) 1%N W P D) as (g & Eg & Wg & Pg & Dg & Xg & Lg & O1 & O2); [lia|exact Ea|]. rewrite Eg.
  set (h1 := match s_entry s with Some e => set_entrypoint g (e + h_entry h)%N | None => Some g end).
  assert (H1 : match h1 with
               | Some h2 => wf h2 /\ ports_match h2 /\ h_nodes h2 = h_nodes g /\ h_ops h2 = h_ops g
               | None => exists e, s_entry s = Some e /\ (N.of_nat (length (s_nodes s)) <= e)%N end).
  { subst h1. destruct (s_entry s) as [e|]; [|auto]. unfold set_entrypoint, contains. destruct (memN (e + h_entry h) (h_nodes g)) eqn:C.
    - apply memN_iff in C. split; [now apply set_entry_wf|]. split; [exact Pg|]. split; reflexivity.
    - apply memN_false in C. exists e. split; [reflexivity|]. rewrite Es. cbn [length]. rewrite Nat2N.inj_succ.
      destruct (N.le_gt_cases (N.succ (N.of_nat (length ns))) e); [assumption|]. exfalso. apply C. apply Dg. lia. }
  destruct h1 as [h2|]; [|left; rewrite <- Es; exact H1]. destruct H1 as (W2 & P2 & N2 & Op2).
  set (h3 := match s_meta s with Some ms => add_meta h2 (h_entry h) ms | None => h2 end).
  assert (H3 : wf h3 /\ ports_match h3 /\ h_nodes h3 = h_nodes g /\ h_ops h3 = h_ops g).
  { subst h3. destruct (s_meta s) as [ms|]; [|auto]. destruct (add_meta_only ms h2 (h_entry h)) as (mm & ->).
    split; [|auto]. destruct W2. constructor; auto. }
  destruct H3 as (W3 & P3 & N3 & Op3). pose proof (add_edges_wf (s_edges s) (h_entry h) h3 W3 P3) as A.
  destruct (add_edges _ _ _); [exact A|exact I|]. right. destruct A as (a & i & b & j & J & C).
  assert (Ops : forall n, In (n + h_entry h)%N (h_nodes h3) -> nth_error (map ns_op (s_nodes s)) (N.to_nat n) = Some (h_ops h3 (n + h_entry h)%N)).
  { intros n J'. rewrite N3 in J'. apply Dg in J'. rewrite Es, Op3. cbn [map]. destruct (N.eq_dec n 0) as [->|Nz].
    - cbn [N.to_nat nth_error]. rewrite N.add_0_l, O1 by lia. now rewrite Eo.
    - replace (N.to_nat n) with (S (N.to_nat (n - 1))) by lia. cbn [nth_error]. rewrite nth_error_map.
      destruct (nth_error ns (N.to_nat (n - 1))) as [x|] eqn:Ex; [|apply nth_error_None in Ex; lia]. cbn [option_map]. f_equal.
      rewrite <- (O2 _ _ Ex). f_equal. lia. }
  rewrite <- Es. destruct C as [(k & -> & Jk & Lk)|(k & -> & Jk & Lk)].
  - exists a, k, Out, (h_ops h3 (a + h_entry h)%N), (a, Some k), (b, j). repeat split; auto.
  - exists b, k, Inc, (h_ops h3 (b + h_entry h)%N), (a, i), (b, Some k). repeat split; auto.
Qed.
Print Assumptions serial_decode_sound.

(** Malformed data is not always reported as an error: reading panics without nodes, with a missing
    entrypoint, and with a port that does not exist. *)
Definition tiny {M} (ns : list nodeser) es e : ser M := {| s_nodes := ns; s_edges := es; s_meta := None; s_entry := e |}.
Definition module_node : nodeser := {| ns_parent := 0; ns_op := OModule |}.

Theorem serial_decode_total_refuted : exists s1 s2 s3 : ser unit,
  s_nodes s1 = [] /\ decode 0 s1 = DPanic /\
  s_nodes s2 = [module_node] /\ s_entry s2 = Some 5%N /\ decode 0 s2 = DPanic /\
  s_nodes s3 = [module_node] /\ s_entry s3 = None /\ s_edges s3 = [((0%N, Some 0), (0%N, Some 0))] /\ decode 0 s3 = DPanic.
Proof.
  exists (tiny [] [] None), (tiny [module_node] [] (Some 5%N)), (tiny [module_node] [((0%N, Some 0), (0%N, Some 0))] None).
  repeat split.
Qed.
Print Assumptions serial_decode_total_refuted.

(** A node whose parent does not exist is accepted. *)
Theorem serial_decode_wf_refuted : exists (s : ser unit) h, decode 0 s = DOk h /\ ~ wf h.
Proof.
  exists (tiny [module_node; {| ns_parent := 7; ns_op := OFuncDecl 0 {| p_params := []; p_ins := []; p_outs := [] |} true |}] [] None).
  eexists. split; [vm_compute; reflexivity|]. intros W.
  destruct (wf_parent _ W 1%N) as (p & E & I); [left; reflexivity|discriminate|]. cbn in E. injection E as <-. cbn in I. intuition discriminate.
Qed.
Print Assumptions serial_decode_wf_refuted.

(** A function that applies an operation, numbered out of order, with an order edge. *)
Definition demo : option (hugr op N) :=
  let b := TypesModel.TAlias 1 Copyable in
  let x := OExt 3 4 [] ([b], [b]) in
  run OModule in_count out_count (new_hugr OModule 9)
    [AddChild 5%N 9%N (OFuncDefn 2 {| p_params := []; p_ins := [b]; p_outs := [b] |} true);
     AddChild 8%N 5%N (OInput [b]); AddChild 2%N 5%N (OOutput [b]); AddChild 1%N 5%N x; AddChild 3%N 5%N x;
     Connect 8%N 0 1%N 0; Connect 8%N 0 3%N 0; Connect 1%N 0 2%N 0; Connect 1%N 1 3%N 1; WriteMeta 3%N 77%N; SetEntry 5%N].

Example serial_nonvacuous :
  match demo with
  | Some h =>
    descendants h (h_root h) = [9; 5; 8; 2; 1; 3]%N /\
    option_map s_edges (encode h) = Some [((4%N, Some 0), (3%N, Some 0)); ((4%N, None), (5%N, None)); ((2%N, Some 0), (4%N, Some 0)); ((2%N, Some 0), (5%N, Some 0))] /\
    option_map s_meta (encode h) = Some (Some [None; None; None; None; None; Some 77]%N) /\
    match encode h with
    | Some s => match decode 0 s with
                | DOk g => h_links g = [((4%N, 0), (3%N, 0)); ((4%N, 1), (5%N, 1)); ((2%N, 0), (4%N, 0)); ((2%N, 0), (5%N, 0))] /\ h_kids g 1%N = [2; 3; 4; 5]%N /\
                           h_entry g = 1%N /\ h_meta g 5%N = Some 77%N /\ h_in g 5%N = 2
                | _ => False
                end
    | None => False
    end
  | None => False
  end.
Proof. vm_compute. repeat split. Qed.
