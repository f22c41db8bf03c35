(** Scope tables, independently: a stack of frames, top first, each frame a list of what was
    declared in it, oldest first. *)
From Coq Require Import List Bool NArith Arith.
From Verif Require Import ScopeModel.
Import ListNotations.

Section Spec.
  Context {K : Type} (keq : forall a b : K, {a = b} + {a <> b}).

  (** [k] is the [i]-th declaration of the list, and not an earlier one. *)
  Definition at_pos {A} (k : A) (l : list A) (i : nat) : Prop :=
    nth_error l i = Some k /\ forall j, j < i -> nth_error l j <> Some k.

  (** Variables *)
  Definition vframes := list (N * list K).

  Inductive v_answers : vframes -> var_op (K:=K) -> vframes -> var_out (K:=K) -> Prop :=
  | VA_enter fs n : v_answers fs (VEnter n) ((n, []) :: fs) VUnit
  | VA_exit f fs : v_answers (f :: fs) VExit fs VUnit
  | VA_res_root k : v_answers [] (VResolve k) [] (VErrRoot k)
  | VA_res_unknown n ks fs k : ~ In k ks ->
      v_answers ((n, ks) :: fs) (VResolve k) ((n, ks) :: fs) (VErrWithin n k)
  | VA_res n ks fs k i : at_pos k ks i ->
      v_answers ((n, ks) :: fs) (VResolve k) ((n, ks) :: fs) (VId n (N.of_nat i))
  | VA_vis_root n i : v_answers [] (VVisible n i) [] (VBool false)
  | VA_vis n ks fs m i b : b = true <-> (m = n /\ (i < N.of_nat (length ks))%N) ->
      v_answers ((n, ks) :: fs) (VVisible m i) ((n, ks) :: fs) (VBool b)
  | VA_ins_dup n ks fs k : In k ks ->
      v_answers ((n, ks) :: fs) (VInsert k) ((n, ks) :: fs) (VErrDup n k)
  | VA_ins n ks fs k : ~ In k ks ->
      v_answers ((n, ks) :: fs) (VInsert k) ((n, ks ++ [k]) :: fs) (VId n (N.of_nat (length ks)))
  | VA_clear fs : v_answers fs VClear [] VUnit.

  (** The caller misuses the table: leaving or inserting with no scope open. *)
  Definition v_misuse (fs : vframes) (o : var_op (K:=K)) : Prop :=
    fs = [] /\ (o = VExit \/ exists k, o = VInsert k).

  (** Caller discipline: an owner is not opened twice at once; fewer than 2^16 variables. *)
  Definition v_ok_op (fs : vframes) (o : var_op (K:=K)) : Prop :=
    match o with
    | VEnter n => ~ In n (map fst fs)
    | VInsert _ => match fs with (_, ks) :: _ => (N.of_nat (length ks) < 65535)%N | [] => True end
    | _ => True
    end.

  (** Links *)
  Definition lframes := list (N * list K * N).   (* region, links, ports *)

  Inductive l_answers : lframes -> link_op (K:=K) -> lframes -> link_out -> Prop :=
  | LA_enter fs r : l_answers fs (LEnter r) ((r, [], 0%N) :: fs) LUnit
  | LA_exit r ks p fs : l_answers ((r, ks, p) :: fs) LExit fs (LCounts (N.of_nat (length ks)) p)
  | LA_use_old r ks p fs k i : at_pos k ks i ->
      l_answers ((r, ks, p) :: fs) (LUse k) ((r, ks, p + 1)%N :: fs) (LIndex i)
  | LA_use_new r ks p fs k : ~ In k ks ->
      l_answers ((r, ks, p) :: fs) (LUse k) ((r, ks ++ [k], p + 1)%N :: fs) (LIndex (length ks))
  | LA_clear fs : l_answers fs LClear [] LUnit.

  Definition l_misuse (fs : lframes) (o : link_op (K:=K)) : Prop :=
    fs = [] /\ (o = LExit \/ exists k, o = LUse k).
  Definition l_ok_op (fs : lframes) (o : link_op (K:=K)) : Prop :=
    match o with
    | LEnter r => ~ In r (map (fun f => fst (fst f)) fs)
    | LUse _ => match fs with (_, _, p) :: _ => (p < 4294967295)%N | [] => True end
    | _ => True
    end.

  (** Symbols: region and its (name, node) declarations *)
  Definition sframes := list (N * list (K * N)).

  (** Innermost binding of a name. *)
  Inductive binds : sframes -> K -> N -> Prop :=
  | B_here r ds fs k n : In (k, n) ds -> binds ((r, ds) :: fs) k n
  | B_outer r ds fs k n : ~ In k (map fst ds) -> binds fs k n -> binds ((r, ds) :: fs) k n.

  Definition declared (fs : sframes) (k : K) (n : N) : Prop :=
    exists f, In f fs /\ In (k, n) (snd f).

  (** [visible_rule] is the answer to a visibility query; the property's reading is
      [fun fs n b => b = true <-> exists k, declared fs k n /\ binds fs k n]. *)
  Inductive s_answers (visible_rule : sframes -> N -> bool -> Prop)
    : sframes -> sym_op (K:=K) -> sframes -> sym_out (K:=K) -> Prop :=
  | SA_enter fs r : s_answers visible_rule fs (SEnter r) ((r, []) :: fs) SUnit
  | SA_exit f fs : s_answers visible_rule (f :: fs) SExit fs SUnit
  | SA_ins_dup r ds fs k n m : In (k, m) ds ->
      s_answers visible_rule ((r, ds) :: fs) (SInsert k n) ((r, ds) :: fs) (SErrDup k n m)
  | SA_ins r ds fs k n : ~ In k (map fst ds) ->
      s_answers visible_rule ((r, ds) :: fs) (SInsert k n) ((r, ds ++ [(k, n)]) :: fs) SUnit
  | SA_res fs k n : binds fs k n -> s_answers visible_rule fs (SResolve k) fs (SNode n)
  | SA_res_unknown fs k : (forall n, ~ declared fs k n) ->
      s_answers visible_rule fs (SResolve k) fs (SErrUnknown k)
  | SA_vis fs n b : visible_rule fs n b -> s_answers visible_rule fs (SVisible n) fs (SBool b)
  | SA_depth fs r d : nth_error (rev (map fst fs)) d = Some r ->
      s_answers visible_rule fs (SRegionDepth r) fs (SOptN (Some (N.of_nat d)))
  | SA_depth_none fs r : ~ In r (map fst fs) ->
      s_answers visible_rule fs (SRegionDepth r) fs (SOptN None)
  | SA_region fs d : s_answers visible_rule fs (SDepthRegion d) fs
                               (SOptN (nth_error (rev (map fst fs)) (N.to_nat d)))
  | SA_clear fs : s_answers visible_rule fs SClear [] SUnit.

  Definition visible_exact (fs : sframes) (n : N) (b : bool) : Prop :=
    b = true <-> exists k, declared fs k n /\ binds fs k n.
  (** One direction only: a positive answer is right. *)
  Definition visible_sound (fs : sframes) (n : N) (b : bool) : Prop :=
    b = true -> exists k, declared fs k n /\ binds fs k n.

  Definition s_misuse (fs : sframes) (o : sym_op (K:=K)) : Prop :=
    fs = [] /\ (o = SExit \/ exists k n, o = SInsert k n).
  Definition s_ok_op (fs : sframes) (o : sym_op (K:=K)) : Prop :=
    match o with
    | SEnter r => ~ In r (map fst fs) /\ (N.of_nat (length fs) < 65535)%N
    | SInsert _ n => forall k, ~ declared fs k n
    | _ => True
    end.
  (** No name is declared twice among the open scopes. *)
  Definition s_no_shadow (fs : sframes) : Prop :=
    NoDup (map fst (concat (map snd fs))).
End Spec.

(** A history of calls, with the answers the specification gives, ending normally or in a
    reported misuse. *)
Inductive follows {F O R : Type} (ok : F -> O -> Prop) (ans : F -> O -> F -> R -> Prop)
          (misuse : F -> O -> Prop) : F -> list O -> list R * bool -> Prop :=
| FO_end fs : follows ok ans misuse fs [] ([], false)
| FO_undisciplined fs o ops res : ~ ok fs o -> follows ok ans misuse fs (o :: ops) res
| FO_misuse fs o ops : misuse fs o -> follows ok ans misuse fs (o :: ops) ([], true)
| FO_step fs o ops fs' r rs p : ok fs o -> ans fs o fs' r -> follows ok ans misuse fs' ops (rs, p) ->
    follows ok ans misuse fs (o :: ops) (r :: rs, p).
