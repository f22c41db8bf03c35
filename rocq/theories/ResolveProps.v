(** Theorems about the table form of modules. *)
From Coq Require Import String List Bool NArith ZArith Arith Lia Permutation SpecFloat.
From Verif Require Import TextModel TextSpec TextProofs ResolveModel ResolveSpec ResolveProofs.
Import ListNotations.
Open Scope nat_scope.
Open Scope list_scope.

(** * Acceptance *)
(** Resolving succeeds just on the modules in which each variable is in scope, parameters are distinct, and no region declares a
    symbol twice; it does not panic. *)
Theorem resolve_accepts (F : Type) (feq : F -> F -> bool) (canon : F -> F) (drain : list (str * N) -> list (str * N)) (m : @module F) :
  (forall a b, feq a b = true <-> canon a = canon b) -> (forall l, Permutation (drain l) l) -> fits_module m ->
  ((exists t, resolve feq drain m = Ok t) <-> scoped_module m) /\ resolve feq drain m <> Crash.
Proof.
  intros Hc Hd Hf. assert (H := module_resolves feq canon Hc drain Hd m Hf). destruct (resolve feq drain m) as [t|e|].
  - split; [|discriminate]. split; [tauto|]. intros _. exists t. reflexivity.
  - split; [|discriminate]. split; [intros [t E]; discriminate E|tauto].
  - destruct H.
Qed.
Print Assumptions resolve_accepts.

(** * Round trip *)
(** The table shows the module with its links numbered, floats up to the equality [feq], and with an import for each symbol
    that was used and not declared. *)
Theorem resolve_round_trip (F : Type) (feq : F -> F -> bool) (canon : F -> F) (drain : list (str * N) -> list (str * N)) (m : @module F) (t : @tmodule F) :
  (forall a b, feq a b = true <-> canon a = canon b) -> (forall l, Permutation (drain l) l) -> fits_module m -> resolve feq drain m = Ok t ->
  exists m' im, (exists k, forall fuel, k <= fuel -> as_ast t fuel = Some (with_imports m' im)) /\
    floats_region canon m' = floats_region canon (numbered_module m) /\ NoDup im /\ (forall n, In n im <-> In n (open_module m)).
Proof.
  intros Hc Hd Hf E. assert (H := module_resolves feq canon Hc drain Hd m Hf). rewrite E in H. destruct H as (_ & ns & ms & im & H1 & H2 & H3 & H4).
  exists (Region ModuleRegion [] [] ns ms None), im. split; [exact H1|]. split; [exact H2|]. split; [exact H3|exact H4].
Qed.
Print Assumptions resolve_round_trip.

Section Ident.
  Context {F : Type}.
  Lemma map_ident {A} (f : A -> A) l : (forall a, In a l -> f a = a) -> map f l = l.
  Proof. induction l as [|a l IH]; intros H; cbn; [reflexivity|]. rewrite H, IH; [reflexivity|intros b Hb; apply H; right; exact Hb|left; reflexivity]. Qed.
  Fixpoint floats_term_id (t : @term F) : floats_term (fun f => f) t = t
  with floats_region_id (r : @region F) : floats_region (fun f => f) r = r
  with floats_node_id (n : @node F) : floats_node (fun f => f) n = n.
  Proof.
    - destruct t as [|n|n ts|ps|l|ps|r]; try reflexivity.
      + change (Apply n (map (floats_term (fun f => f)) ts) = Apply n ts). f_equal. induction ts as [|t ts IH]; cbn [map]; [reflexivity|]. rewrite (floats_term_id t), IH. reflexivity.
      + change (List (map (map_part (floats_term (fun f => f))) ps) = List ps). f_equal. induction ps as [|p ps IH]; cbn [map]; [reflexivity|]. rewrite IH. f_equal. destruct p as [t|t]; cbn [map_part]; rewrite (floats_term_id t); reflexivity.
      + destruct l; reflexivity.
      + change (Tuple (map (map_part (floats_term (fun f => f))) ps) = Tuple ps). f_equal. induction ps as [|p ps IH]; cbn [map]; [reflexivity|]. rewrite IH. f_equal. destruct p as [t|t]; cbn [map_part]; rewrite (floats_term_id t); reflexivity.
      + change (Func (floats_region (fun f => f) r) = Func r). rewrite (floats_region_id r). reflexivity.
    - destruct r as [k src tgt ns ms g].
      change (Region k src tgt (map (floats_node (fun f => f)) ns) (map (floats_term (fun f => f)) ms) (option_map (floats_term (fun f => f)) g) = Region k src tgt ns ms g). f_equal.
      + induction ns as [|n ns IH]; cbn [map]; [reflexivity|]. rewrite (floats_node_id n), IH. reflexivity.
      + induction ms as [|t ms IH]; cbn [map]; [reflexivity|]. rewrite (floats_term_id t), IH. reflexivity.
      + destruct g as [t|]; cbn [option_map]; [rewrite (floats_term_id t)|]; reflexivity.
    - destruct n as [o ins outs rs ms g].
      change (Node (map_operation (floats_term (fun f => f)) o) ins outs (map (floats_region (fun f => f)) rs) (map (floats_term (fun f => f)) ms) (option_map (floats_term (fun f => f)) g) = Node o ins outs rs ms g). f_equal.
      + destruct o as [| | | |x|x|t|x t|x| | |x|x|n]; cbn [map_operation]; try reflexivity; try (rewrite (floats_term_id t); reflexivity);
          destruct x as [v n ps ws y]; unfold map_symbol; cbn [s_params s_where s_sig s_vis s_name]; rewrite ?(floats_term_id t), (floats_term_id y);
          (replace (map (fun p => (fst p, floats_term (fun f => f) (snd p))) ps) with ps by (induction ps as [|[a p] ps IH]; cbn [map fst snd]; [reflexivity|]; rewrite (floats_term_id p), <- IH; reflexivity));
          (replace (map (floats_term (fun f => f)) ws) with ws by (induction ws as [|w ws IH]; cbn [map]; [reflexivity|]; rewrite (floats_term_id w), <- IH; reflexivity)); reflexivity.
      + induction rs as [|r rs IH]; cbn [map]; [reflexivity|]. rewrite (floats_region_id r), IH. reflexivity.
      + induction ms as [|t ms IH]; cbn [map]; [reflexivity|]. rewrite (floats_term_id t), IH. reflexivity.
      + destruct g as [t|]; cbn [option_map]; [rewrite (floats_term_id t)|]; reflexivity.
  Qed.
End Ident.
(** With an exact equality of floats only the links and the imports change. *)
Theorem resolve_exact (F : Type) (feq : F -> F -> bool) (drain : list (str * N) -> list (str * N)) (m : @module F) (t : @tmodule F) :
  (forall a b, feq a b = true <-> a = b) -> (forall l, Permutation (drain l) l) -> fits_module m -> resolve feq drain m = Ok t ->
  exists im, (exists k, forall fuel, k <= fuel -> as_ast t fuel = Some (with_imports (numbered_module m) im)) /\ NoDup im /\ (forall n, In n im <-> In n (open_module m)).
Proof.
  intros Hc Hd Hf E. destruct (resolve_round_trip F feq (fun f => f) drain m t Hc Hd Hf E) as (m' & im & H1 & H2 & H3). rewrite !floats_region_id in H2. subst m'. exists im. auto.
Qed.
Print Assumptions resolve_exact.

(** * Links *)
Lemma show_nat_inj a b : show_nat a = show_nat b -> a = b.
Proof. intros H. destruct (show_nat_ok a) as [<- _], (show_nat_ok b) as [<- _]. rewrite H. reflexivity. Qed.
(** Links that were the same are the same, and links that were different are different. *)
Theorem numbers_distinct (links : list str) (a b : str) : In a links -> In b links -> (number_name links a = number_name links b <-> a = b).
Proof.
  intros Ha Hb. split; [|intros ->; reflexivity]. unfold number_name. intros H. apply show_nat_inj in H. apply Nnat.Nat2N.inj in H.
  assert (Pa := position_at a (distinct_after [] links)). assert (Pb := position_at b (distinct_after [] links)). rewrite distinct_in in Pa, Pb.
  destruct (Pa (or_intror Ha)) as [Ea _], (Pb (or_intror Hb)) as [Eb _]. rewrite H in Ea. congruence.
Qed.
Print Assumptions numbers_distinct.

(** * Floats *)
Lemma ordered_eq_canon a b : ordered_eq a b = true <-> unsigned_zero a = unsigned_zero b.
Proof.
  unfold ordered_eq. destruct a as [s|s| |s m e], b as [s'|s'| |s' m' e']; cbn; try (destruct s, s'; cbn; split; (congruence || discriminate)); try (destruct s; cbn; split; (congruence || discriminate)); try (destruct s'; cbn; split; (congruence || discriminate)); try (split; (congruence || discriminate)).
  assert (Hz : forall c, (match CompOpp c with Eq => true | _ => false end) = (match c with Eq => true | _ => false end)) by (intros []; reflexivity).
  destruct s, s'; cbn; try (split; [discriminate|congruence]).
  - destruct (Z.compare e e') eqn:E; [|split; [discriminate|]; intros [= -> ->]; rewrite Z.compare_refl in E; discriminate E|split; [discriminate|]; intros [= -> ->]; rewrite Z.compare_refl in E; discriminate E].
    apply Z.compare_eq in E. subst e'. destruct (Pos.compare_cont Eq m m') eqn:E; cbn.
    + apply Pos.compare_eq in E. subst. tauto.
    + split; [discriminate|]. intros [= ->]. change (Pos.compare m' m' = Lt) in E. rewrite Pos.compare_refl in E. discriminate E.
    + split; [discriminate|]. intros [= ->]. change (Pos.compare m' m' = Gt) in E. rewrite Pos.compare_refl in E. discriminate E.
  - destruct (Z.compare e e') eqn:E; [|split; [discriminate|]; intros [= -> ->]; rewrite Z.compare_refl in E; discriminate E|split; [discriminate|]; intros [= -> ->]; rewrite Z.compare_refl in E; discriminate E].
    apply Z.compare_eq in E. subst e'. destruct (Pos.compare_cont Eq m m') eqn:E; cbn.
    + apply Pos.compare_eq in E. subst. tauto.
    + split; [discriminate|]. intros [= ->]. change (Pos.compare m' m' = Lt) in E. rewrite Pos.compare_refl in E. discriminate E.
    + split; [discriminate|]. intros [= ->]. change (Pos.compare m' m' = Gt) in E. rewrite Pos.compare_refl in E. discriminate E.
Qed.
(** For the floats of the code: only the sign of zeros may be lost. *)
Theorem resolve_floats (drain : list (str * N) -> list (str * N)) (m : @module spec_float) (t : @tmodule spec_float) :
  (forall l, Permutation (drain l) l) -> fits_module m -> resolve ordered_eq drain m = Ok t ->
  exists m' im, (exists k, forall fuel, k <= fuel -> as_ast t fuel = Some (with_imports m' im)) /\
    floats_region unsigned_zero m' = floats_region unsigned_zero (numbered_module m) /\ NoDup im /\ (forall n, In n im <-> In n (open_module m)).
Proof. apply resolve_round_trip. apply ordered_eq_canon. Qed.
Print Assumptions resolve_floats.

(** ... and it may: 0.0 and -0.0 become one term. *)
Theorem resolve_zero_sign_refuted :
  exists (m : @module spec_float) (t : @tmodule spec_float), fits_module m /\ scoped_module m /\ open_module m = [] /\ resolve ordered_eq (fun l => l) m = Ok t /\
    (forall fuel, as_ast t fuel <> Some (numbered_module m)) /\ (exists fuel m', as_ast t fuel = Some m').
Proof.
  exists (Region ModuleRegion [] [] [] [Lit (LFloat (S754_zero false)); Lit (LFloat (S754_zero true))] None).
  exists (TModule 0 [] [TRegion ModuleRegion [] [] [] [0%N; 0%N] None (Some (0%N, 0%N))] [TLit (LFloat (S754_zero false))]).
  split; [cbn; repeat split; reflexivity|]. split; [cbn; repeat split; constructor|]. split; [reflexivity|]. split; [lazy; reflexivity|]. split.
  - intros [|[|fuel]]; cbn; discriminate.
  - exists 2. eexists. lazy. reflexivity.
Qed.
Print Assumptions resolve_zero_sign_refuted.

(** * Idempotence *)
Lemma distinct_map (f : str -> str) l : forall seen, (forall a b, In a (seen ++ l) -> In b (seen ++ l) -> f a = f b -> a = b) ->
  distinct_after (map f seen) (map f l) = map f (distinct_after seen l).
Proof.
  induction l as [|x l IH]; intros seen H; cbn [map distinct_after]; [reflexivity|].
  destruct (in_dec (list_eq_dec N.eq_dec) x seen) as [Hx|Hx].
  - destruct (in_dec (list_eq_dec N.eq_dec) (f x) (map f seen)) as [_|K]; [|exfalso; apply K; apply in_map; exact Hx].
    apply IH. intros a b Ha Hb. apply H; apply in_app_iff in Ha, Hb; apply in_app_iff; cbn; tauto.
  - destruct (in_dec (list_eq_dec N.eq_dec) (f x) (map f seen)) as [K|_].
    + exfalso. apply in_map_iff in K as (y & E & K). apply Hx. replace x with y; [exact K|]. apply H; [apply in_app_iff; tauto|apply in_app_iff; cbn; tauto|exact E].
    + change [f x] with (map f [x]). rewrite <- map_app. apply IH. intros a b Ha Hb. apply H; rewrite <- app_assoc in *; assumption.
Qed.
Lemma position_map (f : str -> str) n l : In n l -> (forall a, In a l -> f n = f a -> n = a) -> position (f n) (map f l) = position n l.
Proof.
  induction l as [|a l IH]; intros Hn H; [destruct Hn|]. cbn [map position]. destruct (list_eq_dec N.eq_dec n a) as [->|Hne].
  - destruct (list_eq_dec N.eq_dec (f a) (f a)); congruence.
  - destruct (list_eq_dec N.eq_dec (f n) (f a)) as [E|_]; [exfalso; apply Hne; apply H; [left; reflexivity|exact E]|].
    f_equal. apply IH; [destruct Hn; [congruence|assumption]|]. intros b Hb. apply H. right. exact Hb.
Qed.
Lemma number_twice l n : In n l -> number_name (map (number_name l) l) (number_name l n) = number_name l n.
Proof.
  intros Hn. unfold number_name at 1. assert (Hinj : forall a b, In a l -> In b l -> number_name l a = number_name l b -> a = b) by (intros a b Ha Hb E; apply (numbers_distinct l a b Ha Hb); exact E).
  assert (E := distinct_map (number_name l) l [] Hinj). cbn [map] in E. rewrite E. rewrite position_map; [reflexivity|apply distinct_in; tauto|].
  intros a Ha. apply distinct_in in Ha as [[]|Ha]. apply Hinj; assumption.
Qed.

Section Again.
  Context {F : Type}.
  Definition again_term (t : @term F) : Prop := numbered_term (numbered_term t) = numbered_term t.
  Definition again_region (r : @region F) : Prop :=
    (forall h f, (forall x, In x (region_links r) -> h (f x) = f x) -> numbered_region (Some h) (numbered_region (Some f) r) = numbered_region (Some f) r) /\
    numbered_region None (numbered_region None r) = numbered_region None r /\
    (forall f, region_links (numbered_region (Some f) r) = map f (region_links r)).
  Definition again_node (n : @node F) : Prop :=
    (forall h f, (forall x, In x (node_links n) -> h (f x) = f x) -> numbered_node h (numbered_node f n) = numbered_node f n) /\
    (forall f, node_links (numbered_node f n) = map f (node_links n)).
  Lemma again_parts (ps : list (part term)) : Forall (fun p => again_term (part_term p)) ps -> map (map_part (@numbered_term F)) (map (map_part numbered_term) ps) = map (map_part numbered_term) ps.
  Proof. induction 1 as [|p ps Hp _ IH]; cbn [map]; [reflexivity|]. rewrite IH. f_equal. destruct p as [t|t]; cbn [map_part]; rewrite Hp; reflexivity. Qed.
  Lemma again_terms ts : Forall again_term ts -> map numbered_term (map numbered_term ts) = map numbered_term ts.
  Proof. induction 1 as [|t ts Ht _ IH]; cbn [map]; [reflexivity|]. rewrite Ht, IH. reflexivity. Qed.
  Lemma again_opt g : (forall t, g = Some t -> again_term t) -> option_map numbered_term (option_map numbered_term g) = option_map numbered_term g.
  Proof. destruct g as [t|]; intros H; cbn; [rewrite (H t eq_refl)|]; reflexivity. Qed.
  Lemma again_nodes ns : Forall again_node ns ->
    (forall h f, (forall x, In x (flat_map node_links ns) -> h (f x) = f x) -> map (numbered_node h) (map (numbered_node f) ns) = map (numbered_node f) ns) /\
    (forall f, flat_map node_links (map (numbered_node f) ns) = map f (flat_map node_links ns)).
  Proof.
    induction 1 as [|n ns [H1 H2] _ [IH1 IH2]]; [split; reflexivity|]. split.
    - intros h f H. cbn [map flat_map] in *. rewrite H1, IH1; [reflexivity| |]; intros x Hx; apply H; apply in_app_iff; tauto.
    - intros f. cbn [map flat_map]. rewrite H2, IH2, map_app. reflexivity.
  Qed.
  Lemma again_map (h f : str -> str) l : (forall x, In x l -> h (f x) = f x) -> map h (map f l) = map f l.
  Proof. intros H. rewrite map_map. apply map_ext_in. exact H. Qed.
  Lemma again_region_step k src tgt ns ms g : Forall again_node ns -> Forall again_term ms -> (forall t, g = Some t -> again_term t) -> again_region (Region k src tgt ns ms g).
  Proof.
    intros Hn Hm Hg. destruct (again_nodes ns Hn) as [N1 N2].
    assert (E : forall h f, (forall x, In x (src ++ tgt ++ flat_map node_links ns) -> h (f x) = f x) ->
      Region k (map h (map f src)) (map h (map f tgt)) (map (numbered_node h) (map (numbered_node f) ns)) (map numbered_term (map numbered_term ms)) (option_map numbered_term (option_map numbered_term g)) =
      Region k (map f src) (map f tgt) (map (numbered_node f) ns) (map numbered_term ms) (option_map numbered_term g)).
    { intros h f H. rewrite !again_map, N1, again_terms, again_opt; try assumption; try reflexivity; intros x Hx; apply H; rewrite !in_app_iff; tauto. }
    split; [|split].
    - intros h f H. apply E. exact H.
    - set (l := src ++ tgt ++ flat_map node_links ns). set (f := number_name l).
      change (Region k (map (number_name (map f src ++ map f tgt ++ flat_map node_links (map (numbered_node f) ns))) (map f src)) (map (number_name (map f src ++ map f tgt ++ flat_map node_links (map (numbered_node f) ns))) (map f tgt))
        (map (numbered_node (number_name (map f src ++ map f tgt ++ flat_map node_links (map (numbered_node f) ns)))) (map (numbered_node f) ns)) (map numbered_term (map numbered_term ms)) (option_map numbered_term (option_map numbered_term g)) =
        Region k (map f src) (map f tgt) (map (numbered_node f) ns) (map numbered_term ms) (option_map numbered_term g)).
      rewrite N2, <- !map_app. fold l. apply E. intros x Hx. apply number_twice. exact Hx.
    - intros f. change (map f src ++ map f tgt ++ flat_map node_links (map (numbered_node f) ns) = map f (src ++ tgt ++ flat_map node_links ns)). rewrite N2, !map_app. reflexivity.
  Qed.
  Definition again_symbol (x : symbol (@term F)) : Prop := Forall (fun p => again_term (snd p)) (s_params x) /\ Forall again_term (s_where x) /\ again_term (s_sig x).
  Lemma again_sym x : again_symbol x -> map_symbol numbered_term (map_symbol numbered_term x) = map_symbol numbered_term x.
  Proof.
    intros (H1 & H2 & H3). unfold map_symbol. cbn [s_params s_where s_sig s_vis s_name]. rewrite again_terms, H3 by exact H2. f_equal. rewrite map_map. apply map_ext_in. intros p Hp. cbn [fst snd].
    rewrite (proj1 (Forall_forall _ _) H1 p Hp). reflexivity.
  Qed.
  Definition again_operation (o : operation (@term F)) : Prop :=
    match o with
    | DefineFunc x | DeclareFunc x | DeclareAlias x | DeclareConstructor x | DeclareOperation x => again_symbol x
    | DefineAlias x t => again_symbol x /\ again_term t
    | Custom t => again_term t
    | _ => True
    end.
  Lemma again_op o : again_operation o -> map_operation numbered_term (map_operation numbered_term o) = map_operation numbered_term o.
  Proof.
    destruct o as [| | | |x|x|t|x t|x| | |x|x|n]; cbn [map_operation again_operation]; intros H; try reflexivity; try (rewrite again_sym by exact H; reflexivity).
    - rewrite H. reflexivity.
    - destruct H as [H1 H2]. rewrite again_sym, H2 by exact H1. reflexivity.
  Qed.
  Lemma again_node_step o ins outs rs ms g : again_operation o -> Forall again_region rs -> Forall again_term ms -> (forall t, g = Some t -> again_term t) -> again_node (Node o ins outs rs ms g).
  Proof.
    intros Ho Hr Hm Hg. assert (Ed : is_definition (map_operation (@numbered_term F) o) = is_definition o) by (destruct o; reflexivity). split.
    - intros h f H. change (node_links (Node o ins outs rs ms g)) with (ins ++ outs ++ (if is_definition o then [] else flat_map region_links rs)) in H.
      change (Node (map_operation numbered_term (map_operation numbered_term o)) (map h (map f ins)) (map h (map f outs))
        (map (numbered_region (if is_definition (map_operation (@numbered_term F) o) then None else Some h)) (map (numbered_region (if is_definition o then None else Some f)) rs)) (map numbered_term (map numbered_term ms)) (option_map numbered_term (option_map numbered_term g)) =
        Node (map_operation numbered_term o) (map f ins) (map f outs) (map (numbered_region (if is_definition o then None else Some f)) rs) (map numbered_term ms) (option_map numbered_term g)).
      rewrite Ed, again_op, !again_map, again_terms, again_opt; try assumption; try (intros x Hx; apply H; rewrite !in_app_iff; tauto). f_equal.
      destruct (is_definition o).
      + rewrite map_map. apply map_ext_in. intros r Hx. apply (proj1 (Forall_forall _ _) Hr r Hx).
      + rewrite map_map. apply map_ext_in. intros r Hx. apply (proj1 (Forall_forall _ _) Hr r Hx). intros x Hl. apply H. rewrite !in_app_iff. right. right. apply in_flat_map. exists r. auto.
    - intros f. change (map f ins ++ map f outs ++ (if is_definition (map_operation (@numbered_term F) o) then [] else flat_map region_links (map (numbered_region (if is_definition o then None else Some f)) rs)) =
        map f (ins ++ outs ++ (if is_definition o then [] else flat_map region_links rs))).
      rewrite Ed, !map_app. destruct (is_definition o); [reflexivity|]. f_equal. f_equal.
      induction Hr as [|r rs (_ & _ & Hr) _ IH]; [reflexivity|]. cbn [map flat_map]. rewrite Hr, IH, map_app. reflexivity.
  Qed.
  Fixpoint term_again (t : @term F) : again_term t
  with region_again (r : @region F) : again_region r
  with node_again (n : @node F) : again_node n.
  Proof.
    - unfold again_term. destruct t as [|n|n ts|ps|l|ps|r]; try reflexivity.
      + change (Apply n (map numbered_term (map numbered_term ts)) = Apply n (map numbered_term ts)). rewrite again_terms; [reflexivity|]. induction ts as [|t ts IH]; constructor; [apply term_again|exact IH].
      + change (List (map (map_part numbered_term) (map (map_part numbered_term) ps)) = List (map (map_part numbered_term) ps)). rewrite again_parts; [reflexivity|]. induction ps as [|p ps IH]; constructor; [destruct p; apply term_again|exact IH].
      + change (Tuple (map (map_part numbered_term) (map (map_part numbered_term) ps)) = Tuple (map (map_part numbered_term) ps)). rewrite again_parts; [reflexivity|]. induction ps as [|p ps IH]; constructor; [destruct p; apply term_again|exact IH].
      + change (Func (numbered_region None (numbered_region None r)) = Func (numbered_region None r)). rewrite (proj1 (proj2 (region_again r))). reflexivity.
    - destruct r as [k src tgt ns ms g]. apply again_region_step.
      + induction ns as [|n ns IH]; constructor; [apply node_again|exact IH].
      + induction ms as [|t ms IH]; constructor; [apply term_again|exact IH].
      + destruct g as [t|]; intros t' E; [|discriminate E]. injection E as <-. apply term_again.
    - destruct n as [o ins outs rs ms g]. apply again_node_step.
      + destruct o as [| | | |x|x|t|x t|x| | |x|x|n]; try exact I; try apply term_again;
          try (destruct x as [v n ps ws y]); [ | | split; [|apply term_again] | | | ];
          (split; [|split]; cbn;
           [induction ps as [|p ps IH]; constructor; [apply term_again|exact IH]|induction ws as [|t' ws IH]; constructor; [apply term_again|exact IH]|apply term_again]).
      + induction rs as [|r rs IH]; constructor; [apply region_again|exact IH].
      + induction ms as [|t ms IH]; constructor; [apply term_again|exact IH].
      + destruct g as [t|]; intros t' E; [|discriminate E]. injection E as <-. apply term_again.
  Qed.
End Again.
(** The numbers are those a second round gives. *)
Theorem numbered_again (F : Type) (m : @module F) : numbered_module (numbered_module m) = numbered_module m.
Proof.
  destruct m as [k src tgt ns ms g].
  assert (Hn : Forall again_node ns) by (apply Forall_forall; intros n _; apply node_again). assert (Hm : Forall again_term ms) by (apply Forall_forall; intros t _; apply term_again).
  destruct (again_nodes ns Hn) as [N1 N2]. set (l := flat_map node_links ns). set (f := number_name l).
  change (Region ModuleRegion [] [] (map (numbered_node (number_name (flat_map node_links (map (numbered_node f) ns)))) (map (numbered_node f) ns)) (map numbered_term (map numbered_term ms)) None =
    Region ModuleRegion [] [] (map (numbered_node f) ns) (map numbered_term ms) None).
  rewrite N2, again_terms by exact Hm. fold l. rewrite N1; [reflexivity|]. intros x Hx. apply number_twice. exact Hx.
Qed.
Print Assumptions numbered_again.

(** * Examples *)
Open Scope string_scope.
Open Scope list_scope.
Notation nm := text.
Definition sym (n : string) (ps : list (str * @term N)) (g : @term N) : symbol (@term N) := Symbol None (nm n) ps [] g.
Definition ap (n : string) (ts : list (@term N)) : @term N := Apply (nm n) ts.
Definition plain (o : operation (@term N)) (ins outs : list string) (rs : list (@region N)) : @node N := Node o (map nm ins) (map nm outs) rs [] None.
(** A function with a parameter, that uses a function declared below it and two operations that are not declared; its links are named
    like those of the module. *)
Definition inner : @region N := Region DataFlow [nm "b"] [nm "c"] [plain (Custom (ap "op" [Var (nm "T")])) ["b"] ["c"] []] [] None.
Definition body : @region N := Region DataFlow [nm "a"] [nm "b"; nm "a"]
  [plain Dfg ["a"] ["z"] [inner]; plain (Custom (ap "call" [ap "g" []; Lit (LFloat 7%N)])) ["z"] ["b"] []] [ap "meta" [Lit (LFloat 7%N)]] None.
Definition good_module : @module N := Region ModuleRegion [] []
  [plain (DefineFunc (sym "f" [(nm "T", ap "type" []); (nm "n", Var (nm "T"))] (Var (nm "n")))) ["out"; "a"] ["a"] [body]; plain (DeclareFunc (sym "g" [] Wildcard)) [] [] [];
   plain (Custom (ap "use" [Func (Region DataFlow [nm "q"] [nm "q"] [] [] None)])) ["a"] [] []] [] None.
Definition numbered_body : @region N := Region DataFlow [nm "0"] [nm "1"; nm "0"]
  [plain Dfg ["0"] ["2"] [Region DataFlow [nm "1"] [nm "3"] [plain (Custom (ap "op" [Var (nm "T")])) ["1"] ["3"] []] [] None];
   plain (Custom (ap "call" [ap "g" []; Lit (LFloat 7%N)])) ["2"] ["1"] []] [ap "meta" [Lit (LFloat 7%N)]] None.
Definition numbered_good : @module N := Region ModuleRegion [] []
  [plain (DefineFunc (sym "f" [(nm "T", ap "type" []); (nm "n", Var (nm "T"))] (Var (nm "n")))) ["0"; "1"] ["1"] [numbered_body]; plain (DeclareFunc (sym "g" [] Wildcard)) [] [] [];
   plain (Custom (ap "use" [Func (Region DataFlow [nm "0"] [nm "0"] [] [] None)])) ["1"] [] []] [] None.
Example resolve_example :
  numbered_module good_module = numbered_good /\ open_module good_module = map nm ["type"; "meta"; "op"; "call"; "use"]%string /\
  match resolve N.eqb (@rev _) good_module with
  | Ok t => as_ast t 20 = Some (with_imports numbered_good (map nm ["use"; "call"; "op"; "meta"; "type"]%string))
  | _ => False
  end.
Proof. vm_compute. repeat split; reflexivity. Qed.
Definition is_ok {A} (o : out A) : bool := match o with Ok _ => true | _ => false end.
Lemma is_ok_some A (o : out A) : is_ok o = true -> exists t, o = Ok t.
Proof. destruct o; intros H; [eauto|discriminate H|discriminate H]. Qed.
Example good_module_scoped : fits_module good_module /\ scoped_module good_module.
Proof.
  assert (Hf : fits_module good_module) by (cbn; repeat split; try reflexivity; intros H; discriminate H || reflexivity). split; [exact Hf|].
  refine (proj1 (proj1 (resolve_accepts N N.eqb (fun a => a) (@rev _) good_module N.eqb_eq (fun l => Permutation_sym (Permutation_rev l)) Hf)) _).
  apply is_ok_some. vm_cast_no_check (eq_refl true).
Qed.
(** Rejected: a variable of an outer function, a parameter twice, a symbol twice. *)
Definition one_node (n : @node N) : @module N := Region ModuleRegion [] [] [n] [] None.
Example resolve_unknown : resolve N.eqb (@rev _) (one_node (plain (DefineFunc (sym "f" [(nm "T", Wildcard)] Wildcard)) [] []
  [Region DataFlow [] [] [plain (DefineFunc (sym "g" [] (Var (nm "T")))) [] [] []] [] None])) = Err (UnknownVar (nm "T")).
Proof. vm_compute. reflexivity. Qed.
Example resolve_twice : resolve N.eqb (@rev _) (one_node (plain (DeclareAlias (sym "f" [(nm "T", Wildcard); (nm "T", Wildcard)] Wildcard)) [] [] [])) = Err (DuplicateVar (nm "T")).
Proof. vm_compute. reflexivity. Qed.
Example resolve_symbol_twice : resolve N.eqb (@rev _) (Region ModuleRegion [] [] [plain (DeclareAlias (sym "f" [] Wildcard)) [] [] []; plain (Import (nm "f")) [] [] []] [] None) = Err (DuplicateSymbol (nm "f")).
Proof. vm_compute. reflexivity. Qed.
Example numbers_example : map (number_name (map nm ["x"; "y"; "x"; "z"]%string)) (map nm ["x"; "y"; "z"]%string) = map nm ["0"; "1"; "2"]%string.
Proof. vm_compute. reflexivity. Qed.
