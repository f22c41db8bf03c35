(** Theorems about the text form of packages. *)
From Coq Require Import String Ascii List Bool NArith Arith Lia.
From Verif Require Import TextModel TextSpec TextProofs TextTerm TextNode.
Import ListNotations.
Open Scope N_scope.
Open Scope list_scope.

(** * Round trip *)
(** Whatever the layout, parsing the text of a package gives the package, with the lists spliced into lists dissolved. *)
Theorem text_package_round_trip (F : Type) (show : F -> str) (read : str -> F) (p : package) s :
  Forall (ok_module show read) p -> renders (print_package show p) s -> from_str (p_package read) s = Good (map norm_region p).
Proof. apply read_package. Qed.
Print Assumptions text_package_round_trip.

Theorem text_term_round_trip (F : Type) (show : F -> str) (read : str -> F) (t : term) s :
  ok_term show read t -> renders (print_term show t) s -> from_str (p_term read) s = Good (norm t).
Proof. apply term_round. Qed.
Print Assumptions text_term_round_trip.

Theorem text_node_round_trip (F : Type) (show : F -> str) (read : str -> F) (x : node) s :
  ok_node show read x -> renders (print_node show x) s -> from_str (p_node read) s = Good (norm_node x).
Proof. apply node_round. Qed.
Print Assumptions text_node_round_trip.

Theorem text_region_round_trip (F : Type) (show : F -> str) (read : str -> F) (x : region) s :
  ok_region show read x -> renders (print_region show x) s -> from_str (p_region read) s = Good (norm_region x).
Proof. apply region_round. Qed.
Print Assumptions text_region_round_trip.

(** Two packages with a text in common are the same package, up to spliced lists. *)
Theorem text_injective (F : Type) (show : F -> str) (read : str -> F) (p q : package) s :
  Forall (ok_module show read) p -> Forall (ok_module show read) q -> renders (print_package show p) s -> renders (print_package show q) s ->
  map norm_region p = map norm_region q.
Proof.
  intros Hp Hq Rp Rq. assert (E := text_package_round_trip F show read p s Hp Rp). rewrite (text_package_round_trip F show read q s Hq Rq) in E. injection E as ->. reflexivity.
Qed.
Print Assumptions text_injective.

(** Dissolving spliced lists changes nothing where no list is spliced into a list and no tuple into a tuple. *)
Section Plain.
  Context {F : Type}.
  Fixpoint no_splice (t : @term F) : Prop :=
    match t with
    | Apply _ ts => all no_splice ts
    | List ps => all (fun p => match p with Item t => no_splice t | Splice t => no_splice t /\ match t with List _ => False | _ => True end end) ps
    | Tuple ps => all (fun p => match p with Item t => no_splice t | Splice t => no_splice t /\ match t with Tuple _ => False | _ => True end end) ps
    | _ => True
    end.
End Plain.
Theorem text_no_splice (F : Type) (t : @term F) : no_splice t -> norm t = t.
Proof.
  induction t as [|n|n ts IH|ps IH|l|ps IH|r] using term_induction; cbn [no_splice norm]; intros H; try reflexivity.
  - f_equal. induction IH as [|t ts Ht _ IHts]; [reflexivity|]. destruct H as [H1 H2]. cbn [map]. rewrite Ht by exact H1. rewrite IHts by exact H2. reflexivity.
  - f_equal. induction IH as [|p ps Hp _ IHps]; [reflexivity|]. destruct H as [H1 H2]. cbn [flat_map]. rewrite IHps by exact H2. destruct p as [t|t].
    + rewrite Hp by exact H1. reflexivity.
    + destruct H1 as [H1 H3]. specialize (Hp H1). destruct t; try (rewrite Hp; reflexivity). destruct H3.
  - f_equal. induction IH as [|p ps Hp _ IHps]; [reflexivity|]. destruct H as [H1 H2]. cbn [flat_map]. rewrite IHps by exact H2. destruct p as [t|t].
    + rewrite Hp by exact H1. reflexivity.
    + destruct H1 as [H1 H3]. specialize (Hp H1). destruct t; try (rewrite Hp; reflexivity). destruct H3.
Qed.
Print Assumptions text_no_splice.

(** The term and the term with spliced lists dissolved have the same text. *)
Lemma print_both_norm (F : Type) (show : F -> str) (t : term) : print_both show (norm t) = print_both show t.
Proof.
  induction t as [|n|n ts IH|ps IH|l|ps IH|r] using term_induction; try reflexivity.
  - destruct ts as [|t0 ts0]; [reflexivity|]. cbn [norm map print_both]. do 3 f_equal. inversion IH as [|? ? E IH']; subst. rewrite E. f_equal.
    clear - IH'. induction IH' as [|t ts Ht _ IHts]; [reflexivity|]. cbn [map]. rewrite Ht, IHts. reflexivity.
  - cbn [norm print_both].
    match goal with |- (brackets ?a, ?a) = (brackets ?b, ?b) => enough (E : a = b) by (rewrite E; reflexivity) end.
    induction IH as [|p ps Hp _ IHps]; [reflexivity|]. cbn [flat_map]. rewrite flat_map_app, IHps. f_equal. destruct p as [t|t].
    + cbn [flat_map]. rewrite Hp. reflexivity.
    + destruct t; try (cbn [flat_map norm] in *; rewrite ?Hp; rewrite ?app_nil_r; reflexivity).
      exact (f_equal snd Hp).
  - cbn [norm print_both].
    match goal with |- (_ , ?a) = (_, ?b) => enough (E : a = b) by (rewrite E; reflexivity) end.
    induction IH as [|p ps Hp _ IHps]; [reflexivity|]. cbn [flat_map]. rewrite flat_map_app, IHps. f_equal. destruct p as [t|t].
    + cbn [flat_map]. rewrite Hp. reflexivity.
    + destruct t; try (cbn [flat_map norm] in *; rewrite ?Hp; rewrite ?app_nil_r; reflexivity).
      exact (f_equal snd Hp).
Qed.
Theorem text_norm_print (F : Type) (show : F -> str) (t : term) : print_term show (norm t) = print_term show t.
Proof. unfold print_term. rewrite print_both_norm. reflexivity. Qed.
Print Assumptions text_norm_print.

(** * Examples *)
(** The layout that puts the same blanks at every line. *)
Fixpoint layout (w : str) (d : doc) : str := match d with [] => [] | Some c :: d => c :: layout w d | None :: d => w ++ layout w d end.
Lemma layout_renders w d : blank w -> renders d (layout w d).
Proof. intros Hw. induction d as [|[c|] d IH]; cbn; constructor; assumption. Qed.
Definition space : str := [32].
Lemma space_blank : blank space. Proof. split; [discriminate|]. intros c [<-|[]]. tauto. Qed.
Definition breaks : str := [10; 32; 32].
Lemma breaks_blank : blank breaks. Proof. split; [discriminate|]. intros c [<-|[<-|[<-|[]]]]; tauto. Qed.

Ltac chars := cbn; repeat (apply Forall_cons; [unfold name_char, letter, digit; lia|]); apply Forall_nil.
Ltac idn := eexists _, _; split; [reflexivity|]; split; [unfold letter; lia|]; chars.
Ltac nokey := let H := fresh in intros H; cbn in H; repeat (destruct H as [H|H]; [discriminate H|]); destruct H.
Ltac name l := split; [exists (map text l); split; [discriminate|]; split; [cbn; repeat (constructor; [idn|]); constructor|reflexivity]|nokey].
Ltac nostart := let r := fresh in let H := fresh in intros (r & H); cbn in H; discriminate H.
Ltac noclash := let r := fresh in let H := fresh in intros (r & H & _); cbn in H; discriminate H.
Ltac nowild := let H := fresh in let r := fresh in intros [H|(r & H)]; cbn in H; discriminate H.

(** Floats are their texts. *)
Definition self (s : str) : str := s.
Definition big_term : @term str :=
  Apply (text "core.fn") [List [Item (Var (text "x")); Splice (Var (text "y")); Splice (List [Item Wildcard])];
                          Tuple [Item (Lit (LNat 10)); Item (Lit (LStr [97; 92; 34; 10; 233]))]; Lit (LBytes [1; 2; 255; 7]); Lit (LFloat (text "-0.5"))].
Lemma big_ok : ok_term self self big_term.
Proof.
  split; [name ["core"; "fn"]%string|]. split; [discriminate|]. split; [intros _; split; noclash|].
  split; [cbn; repeat split; idn|]. split; [cbn; repeat split; lia|]. split; [repeat constructor|]. split; [|exact I].
  split; [|reflexivity]. exists [45], [48], [53], []. split; [reflexivity|]. split; [right; right; reflexivity|]. split; [split; [discriminate|repeat constructor; unfold digit; lia]|].
  split; [split; [discriminate|repeat constructor; unfold digit; lia]|]. left. reflexivity.
Qed.
Definition big_symbol : symbol (@term str) := Symbol (Some Public) (text "main") [(text "x", Wildcard)] [big_term] big_term.
Lemma big_symbol_ok : ok_symbol self self big_symbol.
Proof.
  split; [name ["main"]%string|]. split; [discriminate|]. split; [constructor; [split; [cbn; idn|exact I]|constructor]|]. split; [constructor; [apply big_ok|constructor]|]. split; [apply big_ok|].
  intros n ts E _. injection E as <- <-. split; nostart.
Qed.
Definition inner : @node str := Node (Custom big_term) [text "a"; text "b0"] [] [] [big_term] (Some big_term).
Definition body : @region str := Region DataFlow [text "a"] [] [inner; Node (Custom (Apply (text "dfgx") [])) [] [] [] [] None] [big_term] None.
Definition big_package : @package str :=
  [Region ModuleRegion [] [] [Node (DefineFunc big_symbol) [] [] [body] [big_term] None; Node (Import (text "prelude.foo")) [] [] [] [] None] [big_term] None; Region ModuleRegion [] [] [] [] None].
Lemma big_package_ok : Forall (ok_module self self) big_package.
Proof.
  assert (Ha : link_name (text "a")) by (unfold link_name; chars). assert (Hb : link_name (text "b0")) by (unfold link_name; chars).
  assert (Hi : ok_node self self inner).
  { split; [split; [apply big_ok|intros n E; discriminate E]|]. split; [exact I|]. split; [apply Forall_cons; [exact Ha|apply Forall_cons; [exact Hb|apply Forall_nil]]|]. split; [constructor|]. split; [exact I|]. split; [constructor; [apply big_ok|constructor]|apply big_ok]. }
  assert (Hd : ok_node self self (Node (Custom (Apply (text "dfgx") [])) [] [] [] [] None)).
  { split; [split|].
    - split; [name ["dfgx"]%string|]. split; [intros _; nowild|]. split; [congruence|exact I].
    - intros n E. injection E as <-. repeat (constructor; [nostart|]). constructor.
    - repeat split; constructor. }
  constructor; [|constructor; [|constructor]]; (split; [|eexists _, _; reflexivity]).
  - split; [constructor|]. split; [constructor|]. split; [|split; [constructor; [apply big_ok|constructor]|exact I]]. split; [|split; [|exact I]].
    + split; [apply big_symbol_ok|]. split; [repeat split|]. split; [constructor|]. split; [constructor|]. split; [|split; [constructor; [apply big_ok|constructor]|exact I]].
      split; [|exact I]. split; [apply Forall_cons; [exact Ha|constructor]|]. split; [constructor|]. split; [split; [exact Hi|split; [exact Hd|exact I]]|]. split; [constructor; [apply big_ok|constructor]|exact I].
    + split; [name ["prelude"; "foo"]%string|]. repeat split; constructor.
  - repeat split; constructor.
Qed.
Example text_example :
  from_str (p_package self) (layout space (print_package self big_package)) = Good (map norm_region big_package) /\
  from_str (p_package self) (layout breaks (print_package self big_package)) = Good (map norm_region big_package) /\
  layout space (print_package self big_package) <> layout breaks (print_package self big_package).
Proof.
  split; [apply text_package_round_trip with (show := self); [apply big_package_ok|apply layout_renders; apply space_blank]|].
  split; [apply text_package_round_trip with (show := self); [apply big_package_ok|apply layout_renders; apply breaks_blank]|]. vm_compute. discriminate.
Qed.
Example text_term_example : from_str (p_term self) (layout breaks (print_term self big_term)) = Good (norm big_term) /\ norm big_term <> big_term.
Proof. split; [apply text_term_round_trip with (show := self); [apply big_ok|apply layout_renders; apply breaks_blank]|]. vm_compute. discriminate. Qed.
Example text_parsed : from_str (p_term self) (text "(f ?x [1 2.5 ?y ...] (tuple) ""a\u{41}\n"")") =
  Good (Apply (text "f") [Var (text "x"); List [Item (Lit (LNat 1)); Item (Lit (LFloat (text "2.5"))); Splice (Var (text "y"))]; Tuple []; Lit (LStr [97; 65; 10])]).
Proof. vm_compute. reflexivity. Qed.
Example text_comment : from_str (p_term self) (text "( f ; comment" ++ [10] ++ text " _ )") = Good (Apply (text "f") [Wildcard]).
Proof. vm_compute. reflexivity. Qed.

(** * What is not kept *)
(** A name that starts with a word of the grammar is taken apart. *)
Theorem text_tuple_name_refuted : exists n (t : @term str), symbol_name n /\ t = Apply n [Wildcard] /\
  exists s t', renders (print_term self t) s /\ from_str (p_term self) s = Good t' /\ t' <> norm t.
Proof.
  exists (text "tuplefoo"), (Apply (text "tuplefoo") [Wildcard]). split; [name ["tuplefoo"]%string|]. split; [reflexivity|].
  exists (layout space (print_term self (Apply (text "tuplefoo") [Wildcard]))), (Tuple [Item (Apply (text "foo") []); Item Wildcard]).
  split; [apply layout_renders; apply space_blank|]. split; [vm_compute; reflexivity|discriminate].
Qed.
Print Assumptions text_tuple_name_refuted.
(** The parser panics on an application of a function named [fn]; [fn] is not a reserved word. *)
Theorem text_fn_name_refuted : exists n (t : @term str), symbol_name n /\ t = Apply n [Wildcard] /\
  exists s, renders (print_term self t) s /\ from_str (p_term self) s = Panic.
Proof.
  exists (text "fn"), (Apply (text "fn") [Wildcard]). split; [name ["fn"]%string|]. split; [reflexivity|].
  exists (layout space (print_term self (Apply (text "fn") [Wildcard]))). split; [apply layout_renders; apply space_blank|]. vm_compute. reflexivity.
Qed.
Print Assumptions text_fn_name_refuted.
(** Function constants are not read back. *)
Theorem text_func_refuted : exists t : @term str, (exists r, t = Func r /\ ok_region self self r) /\
  exists s, renders (print_term self t) s /\ from_str (p_term self) s = Bad.
Proof.
  exists (Func (Region DataFlow [] [] [] [] None)). split; [eexists; split; [reflexivity|repeat split; constructor]|].
  exists (layout space (print_term self (Func (Region DataFlow [] [] [] [] None)))). split; [apply layout_renders; apply space_blank|]. vm_compute. reflexivity.
Qed.
Print Assumptions text_func_refuted.
(** A name that is an underscore is read as a wildcard. *)
Theorem text_underscore_refuted : exists n (t : @term str), symbol_name n /\ t = Apply n [] /\
  exists s t', renders (print_term self t) s /\ from_str (p_term self) s = Good t' /\ t' <> norm t.
Proof.
  exists (text "_"), (Apply (text "_") []). split; [name ["_"]%string|]. split; [reflexivity|].
  exists (layout space (print_term self (Apply (text "_") []))), Wildcard. split; [apply layout_renders; apply space_blank|]. split; [vm_compute; reflexivity|discriminate].
Qed.
Print Assumptions text_underscore_refuted.
(** A float that is written without a point is read as a natural number: the rest of the text is not looked at. *)
Theorem text_float_refuted : exists t : @term str, (exists f, t = Lit (LFloat f) /\ self f = text "1e16") /\
  exists s t', renders (print_term self t) s /\ from_str (p_term self) s = Good t' /\ t' = Lit (LNat 1).
Proof.
  exists (Lit (LFloat (text "1e16"))). split; [eexists; split; reflexivity|].
  exists (layout space (print_term self (Lit (LFloat (text "1e16"))))), (Lit (LNat 1)). split; [apply layout_renders; apply space_blank|]. split; [vm_compute; reflexivity|reflexivity].
Qed.
Print Assumptions text_float_refuted.
(** Numbers beyond 64 bits make the parser panic. *)
Theorem text_nat_refuted : exists s, from_str (p_term self) s = Panic.
Proof. exists (text "18446744073709551616"). vm_compute. reflexivity. Qed.
Print Assumptions text_nat_refuted.
(** Operation names that start with [import] or [meta]: an import, and metadata of the region. *)
Theorem text_import_name_refuted : exists n (x : @node str), symbol_name n /\ x = Node (Custom (Apply n [])) [] [] [] [] None /\
  exists s x', renders (print_node self x) s /\ from_str (p_node self) s = Good x' /\ x' <> norm_node x.
Proof.
  exists (text "importfoo"), (Node (Custom (Apply (text "importfoo") [])) [] [] [] [] None). split; [name ["importfoo"]%string|]. split; [reflexivity|].
  exists (layout space (print_node self (Node (Custom (Apply (text "importfoo") [])) [] [] [] [] None))), (Node (Import (text "foo")) [] [] [] [] None).
  split; [apply layout_renders; apply space_blank|]. split; [vm_compute; reflexivity|discriminate].
Qed.
Print Assumptions text_import_name_refuted.
Theorem text_meta_name_refuted : exists n (x : @region str), symbol_name n /\ x = Region DataFlow [] [] [Node (Custom (Apply n [])) [] [] [] [] None] [] None /\
  exists s x', renders (print_region self x) s /\ from_str (p_region self) s = Good x' /\ x' = Region DataFlow [] [] [] [Apply (text "foo") []] None.
Proof.
  exists (text "metafoo"), (Region DataFlow [] [] [Node (Custom (Apply (text "metafoo") [])) [] [] [] [] None] [] None). split; [name ["metafoo"]%string|]. split; [reflexivity|].
  exists (layout space (print_region self (Region DataFlow [] [] [Node (Custom (Apply (text "metafoo") [])) [] [] [] [] None] [] None))), (Region DataFlow [] [] [] [Apply (text "foo") []] None).
  split; [apply layout_renders; apply space_blank|]. split; [vm_compute; reflexivity|reflexivity].
Qed.
Print Assumptions text_meta_name_refuted.
(** A symbol without visibility whose name starts with [public] becomes public, under another name. *)
Theorem text_visibility_refuted : exists n (x : @node str), symbol_name n /\ x = Node (DeclareFunc (Symbol None n [] [] Wildcard)) [] [] [] [] None /\
  exists s x', renders (print_node self x) s /\ from_str (p_node self) s = Good x' /\ x' = Node (DeclareFunc (Symbol (Some Public) (text "foo") [] [] Wildcard)) [] [] [] [] None.
Proof.
  exists (text "publicfoo"), (Node (DeclareFunc (Symbol None (text "publicfoo") [] [] Wildcard)) [] [] [] [] None). split; [name ["publicfoo"]%string|]. split; [reflexivity|].
  eexists _, _. split; [apply (layout_renders space _ space_blank)|]. split; [vm_compute; reflexivity|reflexivity].
Qed.
Print Assumptions text_visibility_refuted.
(** A signature of the form [(where t)] is taken for a constraint. *)
Theorem text_where_refuted : exists n (x : @node str), symbol_name n /\ x = Node (DeclareFunc (Symbol None (text "f") [] [] (Apply n [Wildcard]))) [] [] [] [] None /\
  exists s, renders (print_node self x) s /\ from_str (p_node self) s <> Good (norm_node x).
Proof.
  exists (text "where"), (Node (DeclareFunc (Symbol None (text "f") [] [] (Apply (text "where") [Wildcard]))) [] [] [] [] None). split; [name ["where"]%string|]. split; [reflexivity|].
  eexists. split; [apply (layout_renders space _ space_blank)|]. vm_compute. discriminate.
Qed.
Print Assumptions text_where_refuted.
(** The invalid operation becomes a custom operation. *)
Theorem text_invalid_refuted : exists x : @node str, x = Node Invalid [] [] [] [] None /\
  exists s x', renders (print_node self x) s /\ from_str (p_node self) s = Good x' /\ x' = Node (Custom (Apply (text "invalid") [])) [] [] [] [] None.
Proof. eexists. split; [reflexivity|]. eexists _, _. split; [apply (layout_renders space _ space_blank)|]. split; [vm_compute; reflexivity|reflexivity]. Qed.
Print Assumptions text_invalid_refuted.
(** A module on its own is printed without the [(mod)] that the parser asks for. *)
Theorem text_module_refuted : exists m : @module str, ok_module self self m /\ exists s, renders (print_module self m) s /\ from_str (p_module self) s = Bad.
Proof.
  exists (Region ModuleRegion [] [] [Node (Import (text "foo")) [] [] [] [] None] [] None). split.
  - split; [|eexists _, _; reflexivity]. split; [constructor|]. split; [constructor|]. split; [|split; [constructor|exact I]]. split; [|exact I]. split; [name ["foo"]%string|]. repeat split; constructor.
  - eexists. split; [apply (layout_renders space _ space_blank)|]. vm_compute. reflexivity.
Qed.
Print Assumptions text_module_refuted.
(** Ports of a declaration are not read back: the text is not a node. *)
Theorem text_symbol_ports_refuted : exists x : @node str, (exists sy, x = Node (DeclareFunc sy) [text "a"] [] [] [] None /\ ok_symbol self self sy) /\
  exists s, renders (print_node self x) s /\ from_str (p_node self) s = Bad.
Proof.
  exists (Node (DeclareFunc (Symbol None (text "f") [] [] Wildcard)) [text "a"] [] [] [] None). split.
  - eexists. split; [reflexivity|]. split; [name ["f"]%string|]. split; [intros _; split; nostart|]. split; [constructor|]. split; [constructor|]. split; [exact I|]. intros n ts E. discriminate E.
  - eexists. split; [apply (layout_renders space _ space_blank)|]. vm_compute. reflexivity.
Qed.
Print Assumptions text_symbol_ports_refuted.
(** Blanks after a question mark become part of the name of the variable. *)
Theorem text_var_blank_refuted : exists s, from_str (p_term self) s = Good (Var (text " x")).
Proof. exists (text "? x"). vm_compute. reflexivity. Qed.
Print Assumptions text_var_blank_refuted.
