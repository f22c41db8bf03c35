(** Theorems about the emission of functions as LLVM code. *)
From Coq Require Import List Bool NArith Arith Lia.
From Verif Require Import PValModel PValSpec TypesModel GraphModel GraphSpec OpModel OpSpec DeadModel DeadProps InlineModel ReplaceModel
  ValidModel ValidSpec ValidProps FlowModel FlowSpec EmitModel EmitSpec EmitSim.
Import ListNotations.
Open Scope nat_scope.

Section Props.
  Context {W V E F M : Type}.
  Notation conc := (conc W N unit).
  Variable tenv : N -> N -> option typedef.
  Variable defs : N -> N -> opsig.
  Variable h : hugr op M.
  Variable sem : @semantics W E F.
  Variable ctx : @context V E F.
  Variable handled : N -> bool.
  Variable run_op : N -> list conc -> list conc -> Prop.

  Definition call_of_emitted : func -> list conc -> outcome -> Prop := call_ends (ext_value sem) run_op (emitted ctx h handled) (externs sem h).

  (** C58: what a call of an emitted function returns is a result of the function. *)
  Theorem emission_correct : GraphSpec.wf h -> valid tenv defs h -> ops_correct sem ctx h run_op ->
    forall f fn ins outs, emitted ctx h handled f = Some fn -> call_of_emitted fn ins (Returns outs) -> computes sem ctx h f ins outs.
  Proof.
    intros Wf Va Ok f fn ins outs Ef (k & Lp & Ex).
    destruct (functions_ok tenv defs h Wf Va sem ctx handled run_op Ok (S k) k f fn ins _ (Nat.lt_succ_diag_r k) Ef Lp Ex) as (outs' & i & o & fr & Eo & Gi & Fi & _ & Io & R).
    injection Eo as <-. exists i, o, fr. split; [exact Gi|]. split; [exact Fi|]. split; [exact (R None [])|exact Io].
  Qed.

  (** The code of a function never reads a mailbox or a register before it is written, nor runs off the end of a block. *)
  Theorem emission_defined : GraphSpec.wf h -> valid tenv defs h -> ops_correct sem ctx h run_op ->
    forall f fn ins, emitted ctx h handled f = Some fn -> ~ call_of_emitted fn ins Undefined.
  Proof.
    intros Wf Va Ok f fn ins Ef (k & Lp & Ex).
    destruct (functions_ok tenv defs h Wf Va sem ctx handled run_op Ok (S k) k f fn ins _ (Nat.lt_succ_diag_r k) Ef Lp Ex) as (outs' & i & o & fr & Eo & _). discriminate.
  Qed.
End Props.

Print Assumptions emission_correct.
Print Assumptions emission_defined.

(** ** Examples *)
(** A machine that can be run. *)
Section Eval.
  Context {W E : Type}.
  Notation conc := (conc W N unit).
  Variable ext_value : E -> W.
  Variable op_fun : N -> list conc -> option (list conc).
  Variable defined : N -> option (@func E).
  Definition op_rel (n : N) (ins outs : list conc) : Prop := op_fun n ins = Some outs.
  Variable declared : N -> list conc -> list conc -> Prop.

  Fixpoint eval (fuel : nat) (c : N -> list (instr E)) (l : list (instr E)) (m : @mem W) (g : @registers W) : option (list conc) :=
    match fuel with
    | 0 => None
    | S fuel =>
      match l with
      | [] => None
      | i :: l =>
        let call r f vs len :=
          match defined f with
          | Some fn =>
            if Nat.eqb (length vs) (f_params fn) then
              match eval fuel (f_code fn) (f_code fn 0%N) no_mem (with_params vs) with
              | Some outs => if Nat.eqb (length outs) len then eval fuel c l m (upd g r (Some outs)) else None
              | None => None
              end
            else None
          | None => None
          end in
        match i with
        | ILoad r ps => match loads m ps with Some vs => eval fuel c l m (upd g r (Some vs)) | None => None end
        | IStore ps a => match g a with Some vs => if Nat.eqb (length vs) (length ps) then eval fuel c l (stores m ps vs) g else None | None => None end
        | IExt r n a => match g a with Some vs => match op_fun n vs with Some outs => eval fuel c l m (upd g r (Some outs)) | None => None end | None => None end
        | ITag r t a => match g a with Some vs => eval fuel c l m (upd g r (Some [CSum (N.of_nat t) vs])) | None => None end
        | IConst r v => eval fuel c l m (upd g r (Some [constant ext_value v]))
        | IFunc r f => eval fuel c l m (upd g r (Some [CFun f tt]))
        | ICall r f a len => match g a with Some vs => call r f vs len | None => None end
        | ICallPtr r a len => match g a with Some (CFun f _ :: vs) => call r f vs len | _ => None end
        | IFields r t len a =>
          match g a with
          | Some (CSum t' cs :: rest) => if N.eqb t' (N.of_nat t) && Nat.eqb (length cs) len then eval fuel c l m (upd g r (Some (cs ++ rest))) else None
          | _ => None
          end
        | IBr b => eval fuel c (c b) m g
        | ISwitch a d cases => match g a with Some (CSum t _ :: _) => eval fuel c (c (goes_to t d cases)) m g | _ => None end
        | IRet a => g a
        end
      end
    end.

  Theorem eval_exec : forall fuel c l m g outs, eval fuel c l m g = Some outs -> exists k, exec ext_value op_rel defined declared c k l m g (Returns outs).
  Proof.
    induction fuel as [|fuel IH]; intros c l m g outs X; [discriminate|]. cbn [eval] in X. destruct l as [|i l]; [discriminate|].
    assert (Call : forall r f vs len, call_of i g = Some (r, f, vs, len) ->
      match defined f with
      | Some fn => if Nat.eqb (length vs) (f_params fn) then
                     match eval fuel (f_code fn) (f_code fn 0%N) no_mem (with_params vs) with
                     | Some outs => if Nat.eqb (length outs) len then eval fuel c l m (upd g r (Some outs)) else None
                     | None => None
                     end
                   else None
      | None => None
      end = Some outs -> exists k, exec ext_value op_rel defined declared c k (i :: l) m g (Returns outs)).
    { intros r f vs len Co Y. destruct (defined f) as [fn|] eqn:Df; [|discriminate]. destruct (Nat.eqb_spec (length vs) (f_params fn)) as [Lp|]; [|discriminate].
      destruct (eval fuel (f_code fn) _ _ _) as [o1|] eqn:E1; [|discriminate]. destruct (Nat.eqb_spec (length o1) len) as [Lo|]; [|discriminate].
      destruct (IH _ _ _ _ _ E1) as (k1 & X1). destruct (IH _ _ _ _ _ Y) as (k2 & X2). eexists. eapply x_call; eassumption. }
    destruct i.
    - destruct (loads m ps) eqn:Lo; [|discriminate]. destruct (IH _ _ _ _ _ X) as (k & Y). eexists. eapply x_load; eassumption.
    - destruct (g a) eqn:Ga; [|discriminate]. destruct (Nat.eqb_spec (length l0) (length ps)) as [Ll|]; [|discriminate]. destruct (IH _ _ _ _ _ X) as (k & Y). eexists. eapply x_store; eassumption.
    - destruct (g a) eqn:Ga; [|discriminate]. destruct (op_fun node l0) eqn:Op; [|discriminate]. destruct (IH _ _ _ _ _ X) as (k & Y). eexists. eapply x_ext; eassumption.
    - destruct (g a) eqn:Ga; [|discriminate]. destruct (IH _ _ _ _ _ X) as (k & Y). eexists. eapply x_tag; eassumption.
    - destruct (IH _ _ _ _ _ X) as (k & Y). eexists. eapply x_const; eassumption.
    - destruct (IH _ _ _ _ _ X) as (k & Y). eexists. eapply x_func; eassumption.
    - destruct (g a) eqn:Ga; [|discriminate]. refine (Call r f l0 results _ X). cbn. now rewrite Ga.
    - destruct (g a) as [[|[w|f []|t cs] vs]|] eqn:Ga; try discriminate. refine (Call r f vs results _ X). cbn. now rewrite Ga.
    - destruct (g a) as [[|[w|f u|t' cs] vs]|] eqn:Ga; try discriminate. destruct (N.eqb_spec t' (N.of_nat tag)) as [->|]; [|discriminate].
      destruct (Nat.eqb_spec (length cs) len) as [Ll|]; [|discriminate]. destruct (IH _ _ _ _ _ X) as (k & Y). eexists. eapply x_fields; eassumption.
    - destruct (IH _ _ _ _ _ X) as (k & Y). eexists. eapply x_br; eassumption.
    - destruct (g a) as [[|[w|f u|t' cs] vs]|] eqn:Ga; try discriminate. destruct (IH _ _ _ _ _ X) as (k & Y). eexists. eapply x_switch; eassumption.
    - eexists. apply x_ret. exact X.
  Qed.
End Eval.

(** Extension operations: the one with name 2 counts down, the others add one; the constant is 7. *)
Definition demo_ctx : @context N N N :=
  {| tuple_kind := fun _ _ => None; interpret := fun _ _ outs => outs; from_opaque := fun _ e => Some e; from_hugr := fun _ _ => None; content := fun _ => KExt 7%N |}.
Definition demo_op (h : hugr op N) (n : N) (ins : list (conc N N unit)) : option (list (conc N N unit)) :=
  match h_ops h n, ins with
  | OExt _ 2%N _ _, [CVal x] => Some [if N.eqb x 0 then CSum 1%N [CVal 42%N] else CSum 0%N [CVal (x - 1)%N]]
  | OExt _ _ _ _, [CVal x] => Some [CVal (x + 1)%N]
  | _, _ => None
  end.
Definition demo_sem (h : hugr op N) : @semantics N N N :=
  {| op_sem := fun n ins outs => demo_op h n ins = Some outs; call_value := fun _ _ _ => False; call_extern := fun _ _ _ => False; ext_value := fun e => e; fun_value := fun f => f |}.
Definition everything (n : N) : bool := true.
Lemma demo_correct (h : hugr op N) : ops_correct (demo_sem h) demo_ctx h (op_rel (demo_op h)).
Proof. intros n e nm a g ins outs On R. eapply l_ext; [exact On|reflexivity|exact R]. Qed.

Definition demo_run (h : hugr op N) (f : N) (ins : list (conc N N unit)) : option (list (conc N N unit)) :=
  match emitted demo_ctx h everything f with
  | Some fn => eval (fun e => e) (demo_op h) (emitted demo_ctx h everything) 200 (f_code fn) (f_code fn 0%N) no_mem (with_params ins)
  | None => None
  end.
Lemma demo_computes (h : hugr op N) f ins outs : GraphSpec.wf h -> valid no_types simple_ops h ->
  match emitted demo_ctx h everything f with Some fn => Nat.eqb (length ins) (f_params fn) | None => false end = true ->
  demo_run h f ins = Some outs -> computes (demo_sem h) demo_ctx h f ins outs.
Proof.
  intros Wf Va Lp X. unfold demo_run in X. destruct (emitted demo_ctx h everything f) as [fn|] eqn:Ef; [|discriminate]. apply Nat.eqb_eq in Lp.
  destruct (eval_exec _ _ _ (externs (demo_sem h) h) _ _ _ _ _ _ X) as (k & Y).
  refine (emission_correct no_types simple_ops h (demo_sem h) demo_ctx everything (op_rel (demo_op h)) Wf Va (demo_correct h) f fn ins outs Ef _). exists k. split; [exact Lp|exact Y].
Qed.

(** A call, a nested graph that uses a value from outside, a conditional, and a control flow graph in which a block uses a value of another block. *)
Definition demo : hugr op N := graph_of (make (rich_acts ++ [ReplaceOp 28%N (OTag 1 two)])).
Example demo_wf : GraphSpec.wf demo.
Proof. apply built_wf. vm_compute. tauto. Qed.
Example demo_valid : valid no_types simple_ops demo.
Proof. apply validate_accepts; [exact demo_wf|]. vm_compute. reflexivity. Qed.
Example demo_ends : demo_run demo 4%N [CVal 5%N] = Some [CVal 7%N].
Proof. vm_compute. reflexivity. Qed.
Example demo_result : computes (demo_sem demo) demo_ctx demo 4%N [CVal 5%N] [CVal 7%N].
Proof. apply demo_computes; [exact demo_wf|exact demo_valid|vm_compute; reflexivity|exact demo_ends]. Qed.

(** The code of the smaller function: a branch to the second block, which reads the (single) parameter. *)
Example demo_code : match emitted demo_ctx demo everything 1%N with
  | Some fn => f_params fn = 1 /\ f_code fn 0%N = [IBr 1%N] /\
      f_code fn 1%N = [ILoad 1%N []; IStore [Wire 2%N 0] 0%N; ILoad 2%N [Wire 2%N 0]; IStore [Anon 0%N] 2%N; ILoad 3%N [Anon 0%N]; IRet 3%N]
  | None => False
  end.
Proof. vm_compute. auto. Qed.

(** A loop, with a value that is passed on; an indirect call. *)
Definition loop_fn : op := OFuncDefn 2 {| p_params := []; p_ins := [bit]; p_outs := [bit; bit] |} false.
Definition loops : hugr op N := graph_of (make
  [AddChild 1%N 0%N loop_fn; AddChild 2%N 1%N (OInput [bit]); AddChild 3%N 1%N (OOutput [bit; bit]);
   AddChild 4%N 1%N (OTailLoop [bit] [bit] [bit]); AddChild 5%N 4%N (OInput [bit; bit]); AddChild 6%N 4%N (OOutput [new_sum [[bit]; [bit]]; bit]);
   AddChild 7%N 4%N (OExt 3 2 [] ([bit], [new_sum [[bit]; [bit]]])); AddChild 8%N 4%N (bit_op 0);
   Connect 5%N 0 7%N 0; Connect 7%N 0 6%N 0; Connect 5%N 1 8%N 0; Connect 8%N 0 6%N 1;
   Connect 2%N 0 4%N 0; Connect 2%N 0 4%N 1;
   AddChild 9%N 0%N (fn 0); AddChild 10%N 9%N (OInput [bit]); AddChild 11%N 9%N (OOutput [bit]); AddChild 12%N 9%N (bit_op 1); Connect 10%N 0 12%N 0; Connect 12%N 0 11%N 0;
   AddChild 13%N 1%N (OLoadFunction {| p_params := []; p_ins := [bit]; p_outs := [bit] |} [] ([bit], [bit])); Connect 9%N 0 13%N 0;
   AddChild 14%N 1%N (OCallIndirect ([bit], [bit])); Connect 13%N 0 14%N 0; Connect 4%N 1 14%N 1;
   Connect 4%N 0 3%N 0; Connect 14%N 0 3%N 1; SetEntry 1%N]).
Example loops_wf : GraphSpec.wf loops.
Proof. apply built_wf. vm_compute. tauto. Qed.
Example loops_valid : valid no_types simple_ops loops.
Proof. apply validate_accepts; [exact loops_wf|]. vm_compute. reflexivity. Qed.
Example loops_result : computes (demo_sem loops) demo_ctx loops 1%N [CVal 3%N] [CVal 42%N; CVal 8%N].
Proof. apply demo_computes; [exact loops_wf|exact loops_valid|vm_compute; reflexivity|vm_compute; reflexivity]. Qed.

(** A control flow graph whose entry block has no successors, because the type that chooses one is empty: valid, but
    [build_destructure] takes the first case of none. *)
Definition no_way : hugr op N := graph_of (make
  [AddChild 1%N 0%N (OFuncDefn 0 {| p_params := []; p_ins := [new_sum []]; p_outs := [] |} false);
   AddChild 2%N 1%N (OInput [new_sum []]); AddChild 3%N 1%N (OOutput []);
   AddChild 4%N 1%N (OCfg ([new_sum []], [])); AddChild 5%N 4%N (OBlock [new_sum []] [] []); AddChild 6%N 4%N (OExit []);
   AddChild 7%N 5%N (OInput [new_sum []]); AddChild 8%N 5%N (OOutput [new_sum []]);
   Connect 7%N 0 8%N 0; Connect 2%N 0 4%N 0; SetEntry 1%N]).
Theorem emission_panics_refuted : exists (h : hugr op N) f sg,
  GraphSpec.wf h /\ valid no_types simple_ops h /\ h_ops h f = OFuncDefn 0 sg false /\ p_params sg = [] /\ emitted demo_ctx h everything f = None.
Proof.
  assert (Wf : GraphSpec.wf no_way) by (apply built_wf; vm_compute; tauto).
  exists no_way, 1%N. eexists. split; [exact Wf|]. split; [apply validate_accepts; [exact Wf|]; vm_compute; reflexivity|]. vm_compute. repeat split; reflexivity.
Qed.
Print Assumptions emission_panics_refuted.
