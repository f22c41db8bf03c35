(** The results of a function whose signature was changed. *)
From Coq Require Import List Bool NArith Arith Lia Permutation.
From Verif Require Import PValModel TypesModel GraphModel GraphSpec PValSpec GraphProofs OpModel OpSpec DeadModel DeadProps InlineModel ReplaceModel ValidModel ValidSpec ValidProps FlowModel FlowSpec EmitModel EmitSpec EmitProps IncallProps MapioModel MapioSpec MapioProps MapioSim.
Import ListNotations.
Local Notation wf := GraphSpec.wf.

Section Run.
  Context {W V E F M : Type}.
  Notation conc := (conc W N unit).

  (** [new] has the elements of [old] at these places. *)
  Definition chosen (ps : list nat) (old new : list conc) : Prop := Forall2 (fun k c => nth_error old k = Some c) ps new.

  (** The function computes what it did, from the inputs that were kept, and gives the outputs that were chosen; if nothing calls it back. *)
  Theorem map_function_results tys defs (sem : @semantics W E F) (ctx : @context V E F) shuffle (h h' : hugr op M) i o nm sg pub ins outs (a a' r r' : list conc) :
    (forall l, Permutation (shuffle l) l) -> wf h -> valid tys defs h -> h_ops h (h_entry h) = OFuncDefn nm sg pub -> get_io h (h_entry h) = Some (i, o) ->
    map_function_type shuffle h ins outs = Mapped h' -> never_called sem ctx h [(new_frame (h_entry h) i a, None)] (h_entry h) ->
    chosen ins a a' -> chosen outs r r' -> computes sem ctx h (h_entry h) a r -> computes sem ctx h' (h_entry h) a' r'.
  Proof.
    intros Sh Wf Va Of Io Hm Nv Ha Hr Hc. destruct (map_function_maps tys defs shuffle Sh h _ i o nm sg pub Wf Va Of Io ins outs eq_refl) as [Hg Hx].
    exact (mapped_computes tys defs sem ctx h h' _ i o nm sg pub ins outs Wf Va Of Io (proj2 Hg (ex_intro _ h' Hm)) (proj2 (Hx h' Hm)) a a' Ha Nv r r' Hr Hc).
  Qed.

  (** A function that no call names is not called, if there are no indirect calls. *)
  Definition uncalled (h : hugr op M) (f : N) : bool :=
    forallb (fun n => match h_ops h n with OCall _ _ _ => negb (match DeadModel.static_source h n with Some g => N.eqb g f | None => false end) | OCallIndirect _ => false | _ => true end) (h_nodes h).
  Lemma uncalled_never (sem : @semantics W E F) (ctx : @context V E F) (h : hugr op M) f st : uncalled h f = true -> never_called sem ctx h st f.
  Proof.
    intros U fr r st' n ins _ (Hn & _) Hc. unfold uncalled in U. rewrite forallb_forall in U. specialize (U n Hn). destruct Hc as [c0 g a cs callee Ho Hin Hs|g cs callee Ho Hin]; rewrite Ho in U; [|discriminate].
    rewrite Hs, N.eqb_refl in U. discriminate.
  Qed.
End Run.
Print Assumptions map_function_results.

(** Two inputs change places and the third goes; of three outputs, the last two are kept, in this order. *)
Lemma mixed_runs : demo_run2 mixed mixed 1%N [CVal 5%N; CVal 9%N; CVal 1%N] = Some [CVal 6%N; CVal 9%N; CVal 6%N] /\
  match emitted demo_ctx mixed everything 1%N with Some fn => Nat.eqb 3 (f_params fn) | None => false end = true /\
  h_entry mixed = 1%N /\ h_ops mixed 1%N = OFuncDefn 1 mixed_sig true /\ get_io mixed 1%N = Some (2%N, 3%N) /\ uncalled mixed 1%N = true /\ is_mapped (map_function_type same mixed [1; 0] [2; 1]) = true.
Proof. vm_compute. repeat split. Qed.
Example mixed_results : computes (demo_sem mixed) demo_ctx (result mixed (map_function_type same mixed [1; 0] [2; 1])) 1%N [CVal 9%N; CVal 5%N] [CVal 6%N; CVal 9%N].
Proof.
  destruct mixed_runs as (R1 & R2 & R3 & R4 & R5 & R6 & R7). destruct mixed_ok as [Wm Vm]. pose proof (demo_computes2 mixed mixed 1%N [CVal 5%N; CVal 9%N; CVal 1%N] [CVal 6%N; CVal 9%N; CVal 6%N] Wm Vm R2 R1) as C1. pose proof (mapped_result mixed _ R7) as Hm.
  revert Hm C1 R3 R4 R5 R6 Wm Vm. generalize (result mixed (map_function_type same mixed [1; 0] [2; 1])) as h'. generalize (demo_sem mixed) as sem. generalize mixed as h. clear. intros h sem h' Hm C1 R3 R4 R5 R6 Wm Vm.
  pose proof (map_function_results no_types simple_ops sem demo_ctx same h h' 2%N 3%N 1%N mixed_sig true [1; 0] [2; 1] [CVal 5%N; CVal 9%N; CVal 1%N] [CVal 9%N; CVal 5%N] [CVal 6%N; CVal 9%N; CVal 6%N] [CVal 6%N; CVal 9%N] (fun l => Permutation_refl l) Wm Vm) as T.
  rewrite R3 in T. apply T; auto; [apply uncalled_never, R6|repeat constructor|repeat constructor].
Qed.

(** A function that calls another, which adds one: its result is given twice. *)
Definition again : hugr op N := graph_of (make
  [AddChild 1%N 0%N (fn 0); AddChild 2%N 1%N (OInput [bit]); AddChild 3%N 1%N (OOutput [bit]); AddChild 8%N 1%N (bit_op 0); Connect 2%N 0 8%N 0; Connect 8%N 0 3%N 0;
   AddChild 4%N 0%N (fn 1); AddChild 5%N 4%N (OInput [bit]); AddChild 6%N 4%N (OOutput [bit]); AddChild 7%N 4%N call_op; AddChild 9%N 4%N (bit_op 0);
   Connect 5%N 0 9%N 0; Connect 9%N 0 7%N 0; Connect 1%N 0 7%N 1; Connect 7%N 0 6%N 0; SetEntry 4%N]).
Lemma again_facts : demo_run2 again again 4%N [CVal 5%N] = Some [CVal 7%N] /\
  match emitted demo_ctx again everything 4%N with Some fn => Nat.eqb 1 (f_params fn) | None => false end = true /\ validate no_types simple_ops again = VOk /\
  h_entry again = 4%N /\ match h_ops again 4%N with OFuncDefn _ _ _ => True | _ => False end /\ is_some (get_io again 4%N) = true /\ uncalled again 4%N = true /\ is_mapped (map_function_type same again [0] [0; 0]) = true.
Proof. vm_compute. repeat split. Qed.
Lemma again_wf : wf again.
Proof. apply built_wf. vm_compute. tauto. Qed.
Example again_results : computes (demo_sem again) demo_ctx (result again (map_function_type same again [0] [0; 0])) 4%N [CVal 5%N] [CVal 7%N; CVal 7%N].
Proof.
  destruct again_facts as (R1 & R2 & Va & R3 & R4 & R5 & R6 & R7). pose proof again_wf as Wm. pose proof (proj1 (validate_accepts no_types simple_ops again Wm) Va) as Vm. pose proof (demo_computes2 again again 4%N [CVal 5%N] [CVal 7%N] Wm Vm R2 R1) as C1. pose proof (mapped_result again _ R7) as Hm.
  revert Hm C1 R3 R4 R5 R6 Wm Vm. generalize (result again (map_function_type same again [0] [0; 0])) as h'. generalize (demo_sem again) as sem. generalize again as h. clear. intros h sem h' Hm C1 R3 R4 R5 R6 Wm Vm.
  rewrite <- R3. rewrite <- R3 in C1, R4, R5, R6. destruct (h_ops h (h_entry h)) eqn:Ho; try destruct R4. destruct (get_io h (h_entry h)) as [[i o]|] eqn:Io; [|discriminate].
  refine (map_function_results no_types simple_ops sem demo_ctx same h h' i o _ _ _ [0] [0; 0] _ _ _ _ (fun l => Permutation_refl l) Wm Vm Ho Io Hm (uncalled_never _ _ _ _ _ R6) _ _ C1); repeat constructor.
Qed.
