(** Proofs about the binary form. *)
From Coq Require Import String List Bool NArith Arith Lia.
From Verif Require Import TextModel TextSpec ResolveModel ResolveSpec BinaryModel BinarySpec.
Import ListNotations.
Open Scope N_scope.
Open Scope list_scope.

Lemma halves n : n mod 65536 + 65536 * (n / 65536) = n.
Proof. pose proof (N.div_mod n 65536). lia. Qed.
Lemma quarters n :
  n mod 4294967296 mod 65536 + 65536 * (n mod 4294967296 / 65536) +
  4294967296 * (n / 4294967296 mod 65536 + 65536 * (n / 4294967296 / 65536)) = n.
Proof. rewrite !halves. pose proof (N.div_mod n 4294967296). lia. Qed.

Lemma collect_map B (f : B -> obj) (g : obj -> got B) (l : list B) (h : B -> B) (P : B -> Prop) :
  (forall b, P b -> g (f b) = Good (h b)) -> Forall P l -> collect g (map f l) = Good (map h l).
Proof. intros H. induction 1 as [|b l Hb _ IH]; cbn; [reflexivity|]. rewrite (H b Hb). cbn. rewrite IH. reflexivity. Qed.

Lemma param_round p : read_param (write_param p (fresh 1 1)) = Good p.
Proof. destruct p as [n t]. cbn -[N.mul N.div N.modulo N.add]. unfold get32, get16. cbn -[N.mul N.div N.modulo N.add]. rewrite halves. reflexivity. Qed.
Lemma part_round p : read_part (write_part p (fresh 1 0)) = Good p.
Proof. destruct p; unfold read_part, get32, get16; cbn -[N.mul N.div N.modulo N.add]; rewrite halves; reflexivity. Qed.
Lemma all_true A (l : list A) : Forall (fun _ => True) l.
Proof. induction l; auto. Qed.
Lemma map_same A (l : list A) : map (fun a => a) l = l.
Proof. induction l; cbn; congruence. Qed.
Lemma params_round l : collect read_param (map (fun x => write_param x (fresh 1 1)) l) = Good l.
Proof. rewrite (collect_map _ _ _ _ (fun p => p) (fun _ => True)); [now rewrite map_same|intros; apply param_round|apply all_true]. Qed.
Lemma parts_round l : collect read_part (map (fun x => write_part x (fresh 1 0)) l) = Good l.
Proof. rewrite (collect_map _ _ _ _ (fun p => p) (fun _ => True)); [now rewrite map_same|intros; apply part_round|apply all_true]. Qed.

Lemma symbol_round x c : read_symbol c (new_symbol x) = Good (match c with Some ws => Symbol (s_vis x) (s_name x) (s_params x) ws (s_sig x) | None => x end).
Proof.
  destruct x as [v n ps ws g]. unfold read_symbol, new_symbol, write_symbol, write_list. cbn [s_vis s_name s_params s_where s_sig].
  assert (P := params_round ps). set (l := map _ ps) in *. clearbody l.
  destruct v as [[]|]; unfold get_ptr, get32, get16; cbn -[N.mul N.div N.modulo N.add collect read_param]; rewrite P; cbn -[N.mul N.div N.modulo N.add];
    rewrite halves; destruct c; reflexivity.
Qed.

Lemma operation_round o : read_operation (write_operation o (fresh 1 1)) = Good (bare_operation o).
Proof.
  assert (S : forall x c d, symbol_at c (Struct d [new_symbol x]) = Good (match c with Some ws => Symbol (s_vis x) (s_name x) (s_params x) ws (s_sig x) | None => x end)).
  { intros x c d. unfold symbol_at. change (get_ptr 0 (Struct d [new_symbol x])) with (new_symbol x).
    replace (as_struct (new_symbol x)) with (Good (new_symbol x)) by (unfold new_symbol; destruct x as [[[]|] n ps ws g]; reflexivity).
    apply symbol_round. }
  destruct o; unfold read_operation; cbn -[N.mul N.div N.modulo N.add new_symbol symbol_at]; unfold set32, set16, set_ptr;
    cbn -[N.mul N.div N.modulo N.add new_symbol symbol_at];
    try (rewrite S; cbn -[N.mul N.div N.modulo N.add]); unfold get32, get16; cbn -[N.mul N.div N.modulo N.add]; rewrite ?halves; try reflexivity.
Qed.

Lemma optional_round o : optional o -> read_optional (optional_id o) = o.
Proof.
  destruct o as [n|]; [|reflexivity]. unfold optional, optional_id, read_optional. intros H. rewrite N.mod_small by lia.
  destruct (N.eqb_spec (n + 1) 0); [lia|]. f_equal. lia.
Qed.
Lemma node_round n : node_fits n -> read_node (write_node n (fresh 1 5)) = Good (bare_node n).
Proof.
  destruct n as [op ins outs rs ms g]. intros (_ & _ & _ & _ & _ & Hg). unfold read_node, write_node, bare_node. cbn [tn_op tn_in tn_out tn_regions tn_meta tn_sig] in *.
  assert (P := operation_round op).
  assert (S : as_struct (write_operation op (fresh 1 1)) = Good (write_operation op (fresh 1 1))) by (destruct op; reflexivity).
  set (o := write_operation op (fresh 1 1)) in *. clearbody o. assert (Q := optional_round _ Hg). set (k := optional_id g) in *. clearbody k.
  unfold get_ptr, get32, get16; cbn -[N.mul N.div N.modulo N.add as_struct read_operation]. rewrite S. cbn -[N.mul N.div N.modulo N.add read_operation].
  rewrite P. cbn -[N.mul N.div N.modulo N.add]. rewrite halves, Q. reflexivity.
Qed.
Lemma region_round r : region_fits r -> read_region (write_region r (fresh 1 5)) = Good r.
Proof.
  destruct r as [k src tgt cs ms g sc]. intros (_ & _ & _ & _ & Hg & _). unfold read_region, write_region. cbn [tr_kind tr_sources tr_targets tr_children tr_meta tr_sig tr_scope] in *.
  assert (Q := optional_round _ Hg). set (i := optional_id g) in *. clearbody i.
  destruct k, sc as [[a b]|]; unfold get_ptr, get32, get16; cbn -[N.mul N.div N.modulo N.add]; rewrite !halves, Q; reflexivity.
Qed.

Section Round.
  Context {F : Type}.
  Variable bits : F -> N.
  Variable unbits : N -> F.
  Hypothesis bits_round : forall f, unbits (bits f) = f.

  Lemma term_round t : read_term unbits (write_term bits t (fresh 2 1)) = Good t.
  Proof.
    assert (G : forall d p n, get64 1 (set64 1 n (Struct (d ++ [0; 0; 0; 0]) p)) = n \/ length d <> 4%nat).
    { intros d p n. destruct d as [|d0 [|d1 [|d2 [|d3 [|d4 d]]]]]; try (right; discriminate); left.
      unfold get64, get32, get16, set64, set32, set16. cbn -[N.mul N.div N.modulo N.add]. apply quarters. }
    destruct t as [| n i | n ts | ps | l | r | ps].
    - reflexivity.
    - unfold read_term, get32, get16; cbn -[N.mul N.div N.modulo N.add]; rewrite ?halves; reflexivity.
    - unfold read_term, get32, get16; cbn -[N.mul N.div N.modulo N.add]; rewrite ?halves; reflexivity.
    - unfold read_term, write_term, write_list. assert (P := parts_round ps). set (l := map _ ps) in *. clearbody l.
      unfold get16; cbn -[N.mul N.div N.modulo N.add collect read_part]. rewrite P. reflexivity.
    - destruct l as [s|n|b|f].
      + reflexivity.
      + destruct (G [0; 0; 4; 0] [Null] n) as [E|E]; [|destruct E; reflexivity].
        change (read_term unbits (write_term bits (TLit (LNat n)) (fresh 2 1))) with (@Good (@tterm F) (TLit (LNat (get64 1 (set64 1 n (Struct ([0; 0; 4; 0] ++ [0; 0; 0; 0]) [Null])))))).
        rewrite E. reflexivity.
      + reflexivity.
      + destruct (G [0; 0; 6; 0] [Null] (bits f)) as [E|E]; [|destruct E; reflexivity].
        change (read_term unbits (write_term bits (TLit (LFloat f)) (fresh 2 1))) with (@Good (@tterm F) (TLit (LFloat (unbits (get64 1 (set64 1 (bits f) (Struct ([0; 0; 6; 0] ++ [0; 0; 0; 0]) [Null]))))))).
        rewrite E, bits_round. reflexivity.
    - unfold read_term, get32, get16; cbn -[N.mul N.div N.modulo N.add]; rewrite ?halves; reflexivity.
    - unfold read_term, write_term, write_list. assert (P := parts_round ps). set (l := map _ ps) in *. clearbody l.
      unfold get16; cbn -[N.mul N.div N.modulo N.add collect read_part]. rewrite P. reflexivity.
  Qed.

  Lemma module_round m : module_fits m -> read_module unbits (write_module bits m (fresh 1 3)) = Good (bare_module m).
  Proof.
    destruct m as [root ns rs ts]. intros (_ & Hn & Hr & _). unfold read_module, write_module, write_list. cbn [tm_root tm_nodes tm_regions tm_terms] in *.
    assert (A := collect_map _ _ _ _ _ _ node_round Hn).
    assert (B := collect_map _ (fun x => write_region x (fresh 1 5)) read_region _ (fun r => r) _ region_round Hr). rewrite map_same in B.
    assert (C := collect_map _ (fun x => write_term bits x (fresh 2 1)) (read_term unbits) _ (fun r => r) (fun _ => True) (fun t _ => term_round t) (all_true _ ts)). rewrite map_same in C.
    set (a := map _ ns) in *. set (b := map _ rs) in *. set (c := map _ ts) in *. clearbody a b c.
    unfold get_ptr, get32, get16. cbn -[N.mul N.div N.modulo N.add collect read_node read_region read_term]. rewrite A. cbn -[N.mul N.div N.modulo N.add collect read_region read_term].
    rewrite B. cbn -[N.mul N.div N.modulo N.add collect read_term]. rewrite C. cbn -[N.mul N.div N.modulo N.add]. rewrite halves. reflexivity.
  Qed.

  Lemma package_round ms : Forall module_fits ms -> read_package unbits (write_package bits ms) = Good (map bare_module ms).
  Proof.
    intros H. unfold write_package, read_package, write_list. assert (C := collect_map _ _ _ _ _ _ module_round H). set (a := map _ ms) in *. clearbody a.
    exact C.
  Qed.
End Round.

(** * Syntax trees *)
Section Views.
  Context {F : Type}.
  (** One step of the views *)
  Lemma view_term_S (m : @tmodule F) fuel id : view_term m (S fuel) id =
    match lookup (tm_terms m) id with
    | None => None
    | Some t =>
      match t with
      | TWildcard => Some Wildcard
      | TVar n i => option_map Var (view_var m n i)
      | TApply n ts => match view_symbol_name m n, all_some (view_term m fuel) ts with Some k, Some ts => Some (Apply k ts) | _, _ => None end
      | TList ps => option_map List (all_some (view_part (view_term m fuel)) ps)
      | TLit l => Some (Lit l)
      | TTuple ps => option_map Tuple (all_some (view_part (view_term m fuel)) ps)
      | TFunc r => option_map Func (view_region m fuel r)
      end
    end.
  Proof. reflexivity. Qed.
  Lemma view_region_S (m : @tmodule F) fuel id : view_region m (S fuel) id =
    match lookup (tm_regions m) id with
    | None => None
    | Some r =>
      match all_some (view_term m fuel) (tr_meta r), all_some (view_node m fuel) (tr_children r), opt_some (view_term m fuel) (tr_sig r) with
      | Some ms, Some ns, Some g => Some (Region (tr_kind r) (map view_link (tr_sources r)) (map view_link (tr_targets r)) ns ms g)
      | _, _, _ => None
      end
    end.
  Proof. reflexivity. Qed.
  Lemma view_node_S (m : @tmodule F) fuel id : view_node m (S fuel) id =
    match lookup (tm_nodes m) id with
    | None => None
    | Some n =>
      match view_operation (view_term m fuel) (tn_op n), all_some (view_term m fuel) (tn_meta n), opt_some (view_term m fuel) (tn_sig n),
            all_some (view_region m fuel) (tn_regions n) with
      | Some o, Some ms, Some g, Some rs => Some (Node o (map view_link (tn_in n)) (map view_link (tn_out n)) rs ms g)
      | _, _, _, _ => None
      end
    end.
  Proof. reflexivity. Qed.

  Variable m : @tmodule F.
  Notation b := (bare_module m).

  Lemma lookup_map A B (f : A -> B) l i : lookup (map f l) i = option_map f (lookup l i).
  Proof. unfold lookup. apply nth_error_map. Qed.
  Lemma bare_symbol_of T (o : operation T) : option_map s_params (op_symbol (bare_operation o)) = option_map s_params (op_symbol o).
  Proof. destruct o; reflexivity. Qed.
  Lemma bare_name T (o : operation T) : op_symbol_name (bare_operation o) = op_symbol_name o.
  Proof. destruct o; reflexivity. Qed.
  Lemma view_var_bare n i : view_var b n i = view_var m n i.
  Proof.
    unfold view_var. cbn [tm_nodes bare_module]. rewrite lookup_map. destruct (lookup (tm_nodes m) n) as [x|]; [|reflexivity]. cbn.
    pose proof (bare_symbol_of _ (tn_op x)) as E. destruct (op_symbol (bare_operation (tn_op x))), (op_symbol (tn_op x)); cbn in E; congruence.
  Qed.
  Lemma view_name_bare n : view_symbol_name b n = view_symbol_name m n.
  Proof.
    unfold view_symbol_name. cbn [tm_nodes bare_module]. rewrite lookup_map. destruct (lookup (tm_nodes m) n) as [x|]; [|reflexivity]. cbn. apply bare_name.
  Qed.

  Lemma all_some_map A B (f g : A -> option B) (h : B -> B) :
    (forall a x, f a = Some x -> g a = Some (h x)) -> forall l xs, all_some f l = Some xs -> all_some g l = Some (map h xs).
  Proof.
    intros H. induction l as [|a l IH]; cbn; intros xs E; [injection E as <-; reflexivity|].
    destruct (f a) as [x|] eqn:Ea; [|discriminate E]. destruct (all_some f l) as [ys|]; [|discriminate E]. injection E as <-.
    rewrite (H _ _ Ea), (IH _ eq_refl). reflexivity.
  Qed.
  Lemma opt_some_map A B (f g : A -> option B) (h : B -> B) :
    (forall a x, f a = Some x -> g a = Some (h x)) -> forall o x, opt_some f o = Some x -> opt_some g o = Some (option_map h x).
  Proof.
    intros H [a|] x; cbn; intros E; [|injection E as <-; reflexivity]. destruct (f a) as [y|] eqn:Ea; [|discriminate E]. injection E as <-.
    rewrite (H _ _ Ea). reflexivity.
  Qed.

  Section Parts.
    Variable f g : N -> option (@term F).
    Hypothesis H : forall a x, f a = Some x -> g a = Some (bare_term x).
    Lemma part_bare p x : view_part f p = Some x -> view_part g p = Some (map_part bare_term x).
    Proof.
      destruct p as [t|t]; cbn; (destruct (f t) as [y|] eqn:E; intros W; [|discriminate W]); injection W as <-; rewrite (H _ _ E); reflexivity.
    Qed.
    Lemma param_bare p x : view_param f p = Some x -> view_param g p = Some (fst x, bare_term (snd x)).
    Proof. destruct p as [n t]. unfold view_param. cbn. destruct (f t) as [y|] eqn:E; intros W; [|discriminate W]. injection W as <-. rewrite (H _ _ E). reflexivity. Qed.
    Lemma symbol_bare x y : view_symbol f x = Some y -> view_symbol g x = Some (map_symbol bare_term y).
    Proof.
      unfold view_symbol. destruct (all_some _ _) as [ps|] eqn:A; [|discriminate]. destruct (all_some f _) as [ws|] eqn:B; [|discriminate].
      destruct (f (s_sig x)) as [k|] eqn:C; [|discriminate]. intros W. injection W as <-.
      rewrite (all_some_map _ _ _ _ _ param_bare _ _ A), (all_some_map _ _ _ _ _ H _ _ B), (H _ _ C). reflexivity.
    Qed.
    Lemma symbol_bare_no x y : view_symbol f x = Some y -> view_symbol g (no_where x) = Some (no_where (map_symbol bare_term y)).
    Proof.
      unfold view_symbol. destruct (all_some _ _) as [ps|] eqn:A; [|discriminate]. destruct (all_some f _) as [ws|] eqn:B; [|discriminate].
      destruct (f (s_sig x)) as [k|] eqn:C; [|discriminate]. intros W. injection W as <-.
      cbn [s_params s_where s_sig no_where s_vis s_name all_some]. rewrite (all_some_map _ _ _ _ _ param_bare _ _ A), (H _ _ C). reflexivity.
    Qed.
    Lemma operation_bare o x : view_operation f o = Some x -> view_operation g (bare_operation o) = Some (bare_operation (map_operation bare_term x)).
    Proof.
      assert (V : forall y w (k : symbol (@term F) -> operation (@term F)), option_map k (view_symbol f y) = Some w ->
        exists z, view_symbol f y = Some z /\ w = k z).
      { intros y w k. destruct (view_symbol f y); cbn; intros W; [|discriminate W]. injection W as <-. eauto. }
      destruct o as [| | | |s|s|t|s t|s| | |s|s|n]; cbn [bare_operation view_operation]; intros E; try (injection E as <-; reflexivity);
        try (apply V in E; destruct E as (z & Ez & ->); rewrite (symbol_bare _ _ Ez); reflexivity).
      - destruct (f t) as [y|] eqn:E2; [|discriminate E]. injection E as <-. rewrite (H _ _ E2). reflexivity.
      - destruct (view_symbol f s) as [z|] eqn:Ez; [|discriminate E]. destruct (f t) as [y|] eqn:E2; [|discriminate E]. injection E as <-.
        rewrite (symbol_bare_no _ _ Ez), (H _ _ E2). reflexivity.
      - apply V in E. destruct E as (z & Ez & ->). rewrite (symbol_bare_no _ _ Ez). reflexivity.
    Qed.
  End Parts.

  Lemma view_bare fuel :
    (forall i t, view_term m fuel i = Some t -> view_term b fuel i = Some (bare_term t)) /\
    (forall i r, view_region m fuel i = Some r -> view_region b fuel i = Some (bare_region r)) /\
    (forall i n, view_node m fuel i = Some n -> view_node b fuel i = Some (bare_tree n)).
  Proof.
    induction fuel as [|fuel (IHt & IHr & IHn)]; [repeat split; intros i x E; discriminate E|]. split; [|split]; intros i x; rewrite ?view_term_S, ?view_region_S, ?view_node_S; cbn [tm_terms tm_regions tm_nodes bare_module].
    - destruct (lookup (tm_terms m) i) as [t|]; [|discriminate].
      assert (P : forall (k : list (part (@term F)) -> @term F) ps w, option_map k (all_some (view_part (view_term m fuel)) ps) = Some w ->
        exists qs, w = k qs /\ all_some (view_part (view_term b fuel)) ps = Some (map (map_part bare_term) qs)).
      { intros k ps w. destruct (all_some _ ps) as [qs|] eqn:E; intros W; [|discriminate W]. injection W as <-. exists qs. split; [reflexivity|].
        exact (all_some_map _ _ _ _ _ (part_bare _ _ IHt) _ _ E). }
      destruct t as [| n j | n ts | ps | l | r | ps].
      + intros E. injection E as <-. reflexivity.
      + rewrite view_var_bare. destruct (view_var m n j); intros E; [|discriminate E]. injection E as <-. reflexivity.
      + rewrite view_name_bare. destruct (view_symbol_name m n) as [k|]; [|discriminate]. destruct (all_some _ ts) as [us|] eqn:E; [|discriminate].
        intros W. injection W as <-. rewrite (all_some_map _ _ _ _ _ IHt _ _ E). reflexivity.
      + intros E. apply P in E. destruct E as (qs & -> & E). rewrite E. reflexivity.
      + intros E. injection E as <-. reflexivity.
      + destruct (view_region m fuel r) as [y|] eqn:E; intros W; [|discriminate W]. injection W as <-. rewrite (IHr _ _ E). reflexivity.
      + intros E. apply P in E. destruct E as (qs & -> & E). rewrite E. reflexivity.
    - destruct (lookup (tm_regions m) i) as [r|]; [|discriminate].
      destruct (all_some (view_term m fuel) (tr_meta r)) as [ms|] eqn:A; [|discriminate]. destruct (all_some (view_node m fuel) (tr_children r)) as [ns|] eqn:B; [|discriminate].
      destruct (opt_some _ _) as [g|] eqn:C; [|discriminate]. intros W. injection W as <-.
      rewrite (all_some_map _ _ _ _ _ IHt _ _ A), (all_some_map _ _ _ _ _ IHn _ _ B), (opt_some_map _ _ _ _ _ IHt _ _ C). reflexivity.
    - rewrite lookup_map. destruct (lookup (tm_nodes m) i) as [n|]; [|discriminate]. cbn [option_map bare_node tn_op tn_in tn_out tn_regions tn_meta tn_sig].
      destruct (view_operation _ _) as [o|] eqn:A; [|discriminate]. destruct (all_some _ (tn_meta n)) as [ms|] eqn:B; [|discriminate].
      destruct (opt_some _ _) as [g|] eqn:C; [|discriminate]. destruct (all_some _ (tn_regions n)) as [rs|] eqn:D; [|discriminate]. intros W. injection W as <-.
      rewrite (operation_bare _ _ IHt _ _ A), (all_some_map _ _ _ _ _ IHt _ _ B), (opt_some_map _ _ _ _ _ IHt _ _ C), (all_some_map _ _ _ _ _ IHr _ _ D). reflexivity.
  Qed.
End Views.
