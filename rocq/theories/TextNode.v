(** Lemmas about the text form: symbols, nodes, regions, packages. *)
From Coq Require Import String Ascii List Bool NArith Arith Lia.
From Verif Require Import TextModel TextSpec TextProofs TextTerm.
Import ListNotations.
Open Scope N_scope.
Open Scope list_scope.

Section Node.
  Context {F : Type}.
  Variable show : F -> str.
  Variable read : str -> F.
  Notation term := (@term F).
  Notation region := (@region F).
  Notation node := (@node F).
  Notation pt := (print_term show).

  Definition any (s : str) : Prop := True.
  Lemma roomy_any : roomy any. Proof. intros w c s _ _. exact I. Qed.

  (** ** Single-term brackets *)
  Lemma wrapped_text k d s r : renders (parens [kw k; d]) s -> exists w sd, s ++ r = 40 :: text k ++ w ++ sd ++ 41 :: r /\ blank w /\ renders d sd.
  Proof.
    intros H. destruct (parens_text _ _ H) as (s1 & -> & Hs1). unfold kw in Hs1. destruct (words_text _ _ _ Hs1) as (s2 & -> & Hs2). cbn [lead flat_map] in Hs2. rewrite app_nil_r in Hs2.
    destruct (renders_line _ _ Hs2) as (w & sd & -> & Hw & Hd). exists w, sd. split; [|tauto]. cbn [app]. rewrite <- !app_assoc. reflexivity.
  Qed.
  Lemma read_wrapped k t n : solid (hd 0 (text k)) -> text k <> [] -> ok_term show read t ->
    parses n any (p_wrapped read n k) (parens [kw k; pt t]) (norm t) /\ starty (parens [kw k; pt t]).
  Proof.
    intros Hk Hne Ht. split; [|apply starty_parens]. intros s r Hs _ Hn. destruct (wrapped_text _ _ _ r Hs) as (w & sd & E & Hw & Hd). rewrite E in *. unfold p_wrapped.
    rewrite open_text by (destruct (text k); [congruence|exact Hk]). unfold word. rewrite lit_app. rewrite skip_blank by exact Hw.
    destruct (read_term show read t Ht) as (Hp & Hst & _). destruct (starty_text _ _ Hst Hd) as (c & q & Eq & Hc).
    replace (skip (sd ++ 41 :: r)) with (sd ++ 41 :: r) by (rewrite Eq; symmetry; apply skip_solid; apply Hc).
    rewrite (Hp n sd (41 :: r) Hd); [|cbn; tauto|lens]. unfold close. rewrite skip_solid by apply close_solid. reflexivity.
  Qed.
  Lemma read_wraps k ts n : solid (hd 0 (text k)) -> text k <> [] -> Forall (ok_term show read) ts ->
    Forall2 (fun d x => parses n any (p_wrapped read n k) d x /\ starty d) (map (fun t => parens [kw k; pt t]) ts) (map norm ts).
  Proof. intros Hk Hne. induction 1; constructor; [apply read_wrapped; assumption|assumption]. Qed.
  Lemma solid_letter c : letter c -> solid c. Proof. intros H. apply name_char_solid. unfold name_char. tauto. Qed.

  Lemma read_param n p : ident (fst p) -> ok_term show read (snd p) ->
    parses n any (p_param read n) (print_param (fst p) (pt (snd p))) (fst p, norm (snd p)) /\ starty (print_param (fst p) (pt (snd p))).
  Proof.
    intros Hi Ht. split; [|apply starty_parens]. intros s r Hs _ Hn. destruct p as [v t]. cbn [fst snd] in *. unfold print_param in Hs. destruct (parens_text _ _ Hs) as (s1 & -> & Hs1).
    unfold kw in Hs1. destruct (words_text _ _ _ Hs1) as (s2 & -> & Hs2). cbn [lead flat_map] in Hs2. rewrite app_nil_r in Hs2.
    change (renders (None :: print_var v ++ None :: pt t) s2) in Hs2. destruct (renders_line _ _ Hs2) as (w & s3 & -> & Hw & Hs3). destruct (renders_app _ _ _ Hs3) as (sv & s4 & -> & Hv & Hs4). apply var_text in Hv. subst sv.
    destruct (renders_line _ _ Hs4) as (w' & sd & -> & Hw' & Hd). cbn [app]. rewrite <- !app_assoc. cbn [app].
    unfold p_param. rewrite open_text by (split; [reflexivity|discriminate]). unfold word. rewrite lit_app. rewrite skip_blank by exact Hw. rewrite <- !app_assoc.
    rewrite skip_solid by (split; [reflexivity|discriminate]). rewrite read_var_text; [|exact Hi|apply delim_blank; exact Hw'].
    rewrite skip_blank by exact Hw'. destruct (read_term show read t Ht) as (Hp & Hst & _). destruct (starty_text _ _ Hst Hd) as (c & q & Eq & Hc).
    cbn [app]. replace (skip (sd ++ 41 :: r)) with (sd ++ 41 :: r) by (rewrite Eq; symmetry; apply skip_solid; apply Hc).
    rewrite (Hp n sd (41 :: r) Hd); [|cbn; tauto|lens]. unfold close. rewrite skip_solid by apply close_solid. reflexivity.
  Qed.

  (** ** What a word finds at the start of a term, in parentheses *)
  (** The term is not an application whose name starts with the word. *)
  Lemma term_open k t s r : plain k = true -> (forall x, word k (text "tuple" ++ x) = None) -> (forall x, word k (text "bytes" ++ x) = None) ->
    ok_term show read t -> (forall n ts, t = Apply n ts -> ts <> [] -> ~ starts k n) -> renders (pt t) s -> delim r -> open_word k (s ++ r) = None.
  Proof.
    intros Hk Ht Hb Hok Hn Hs Hr.
    assert (Hfirst : forall c q, s = c :: q -> c <> 40 -> open_word k (s ++ r) = None) by (intros c q -> Hc; apply open_first; exact Hc).
    destruct t as [|n|n ts|ps|l|ps|g].
    - apply renders_chars in Hs. eapply Hfirst; [exact Hs|discriminate].
    - apply var_text in Hs. eapply Hfirst; [exact Hs|discriminate].
    - cbn [ok_term] in Hok. destruct Hok as (Hsn & _). destruct ts as [|t ts].
      + apply renders_chars in Hs. destruct (name_start n Hsn) as (c & q & En & _ & Hi). eapply Hfirst; [rewrite Hs; exact En|unfold letter in Hi; lia].
      + change (pt (Apply n (t :: ts))) with (parens (chars n :: map pt (t :: ts))) in Hs. destruct (parens_text _ _ Hs) as (s1 & -> & Hs1). destruct (words_text _ _ _ Hs1) as (s2 & -> & Hs2).
        cbn [app]. rewrite <- !app_assoc. cbn [app]. rewrite open_name by exact Hsn. destruct (word k (n ++ s2 ++ 41 :: r)) as [q|] eqn:E; [|reflexivity].
        destruct (word_name k n (s2 ++ 41 :: r) q Hk Hsn) as (r' & En & _); [apply (lead_delim _ _ _ _ Hs2); tauto|exact E|]. exfalso. apply (Hn n (t :: ts) eq_refl); [discriminate|exists r'; exact En].
    - destruct (brackets_text _ _ Hs) as (s1 & E & _). eapply Hfirst; [exact E|discriminate].
    - change (pt (Lit l)) with (print_literal show l) in Hs. destruct l as [x|m|b|f]; cbn [print_literal] in Hs.
      + apply renders_chars in Hs. eapply Hfirst; [exact Hs|discriminate].
      + apply renders_chars in Hs. destruct (show_nat_ok m) as (_ & Hd & Hne). destruct (show_nat m) as [|c q] eqn:Eq; [congruence|]. eapply Hfirst; [exact Hs|]. inversion Hd as [|? ? Hc _]; subst. unfold digit in Hc. lia.
      + destruct (parens_text _ _ Hs) as (s1 & -> & Hs1). change (kw "bytes") with (chars (text "bytes")) in Hs1. destruct (words_text _ _ _ Hs1) as (s2 & -> & _). cbn [app]. rewrite <- !app_assoc.
        rewrite open_text by (split; [reflexivity|discriminate]). apply Hb.
      + apply renders_chars in Hs. destruct Hok as [(sg & a & b & e & E & Hsg & Ha & _) _]. destruct (sign_digit_start (show f)) as (c & q & Eq & _ & Hc); [exists sg, a, (46 :: b ++ e); tauto|].
        eapply Hfirst; [rewrite Hs; exact Eq|unfold digit in Hc; lia].
    - change (pt (Tuple ps)) with (parens (chars (text "tuple") :: tuple_docs show ps)) in Hs. destruct (parens_text _ _ Hs) as (s1 & -> & Hs1). destruct (words_text _ _ _ Hs1) as (s2 & -> & _). cbn [app]. rewrite <- !app_assoc.
      rewrite open_text by (split; [reflexivity|discriminate]). apply Ht.
    - destruct Hok.
  Qed.

  (** ** Symbols *)
  Definition symbol_docs (s : symbol term) : list doc := print_symbol pt s.
  Lemma read_params n ps : Forall (fun p => ident (fst p) /\ ok_term show read (snd p)) ps ->
    Forall2 (fun d x => parses n any (p_param read n) d x /\ starty d) (map (fun p => print_param (fst p) (pt (snd p))) ps) (map (fun p => (fst p, norm (snd p))) ps).
  Proof. induction 1 as [|p ps [H1 H2] _ IH]; constructor; [apply read_param; assumption|exact IH]. Qed.
  Lemma render_term t s r : ok_term show read t -> renders (pt t) s -> skip (s ++ r) = s ++ r.
  Proof. intros Ht Hs. destruct (read_term show read t Ht) as (_ & Hst & _). destruct (starty_text _ _ Hst Hs) as (c & q & -> & Hc). apply skip_solid. apply Hc. Qed.
  Lemma vis_none n r : symbol_name n -> ~ starts "public" n -> ~ starts "private" n -> delim r -> p_visibility (n ++ r) = None.
  Proof.
    intros Hn H1 H2 Hr. unfold p_visibility. destruct (word "public" (n ++ r)) as [q|] eqn:E.
    { destruct (word_name "public" n r q eq_refl Hn Hr E) as (r' & En & _). exfalso. apply H1. exists r'. exact En. }
    destruct (word "private" (n ++ r)) as [q|] eqn:E'; [|reflexivity]. destruct (word_name "private" n r q eq_refl Hn Hr E') as (r' & En & _). exfalso. apply H2. exists r'. exact En.
  Qed.
  Lemma read_symbol n sy s r : ok_symbol show read sy -> renders (lead (symbol_docs sy)) s -> delim r -> (length (s ++ r) < n)%nat ->
    p_symbol read n (skip (s ++ r)) = Some (Good (norm_symbol sy), r).
  Proof.
    destruct sy as [v nm ps ws t]. unfold symbol_docs, print_symbol. cbn [s_vis s_name s_params s_where s_sig ok_symbol]. intros (Hnm & Hv & Hps & Hws & Ht & Hsig) Hs Hr Hn. cbn [s_vis s_name s_params s_where s_sig] in *.
    rewrite !lead_app in Hs. destruct (renders_app _ _ _ Hs) as (sv & s1 & -> & Hsv & Hs1). destruct (renders_app _ _ _ Hs1) as (sn & s2 & -> & Hsn & Hs2).
    destruct (renders_app _ _ _ Hs2) as (sp & s3 & -> & Hsp & Hs3). destruct (renders_app _ _ _ Hs3) as (sw & s4 & -> & Hsw & Hs4).
    cbn [lead flat_map] in Hsn, Hs4. rewrite app_nil_r in Hsn, Hs4. destruct (renders_line _ _ Hsn) as (w & sn' & -> & Hw & Hn'). apply renders_chars in Hn'. subst sn'.
    destruct (renders_line _ _ Hs4) as (w4 & st & -> & Hw4 & Hst).
    set (tail := sp ++ sw ++ w4 ++ st ++ r).
    assert (Etail : ((sv ++ (w ++ nm) ++ sp ++ sw ++ w4 ++ st) ++ r) = sv ++ w ++ nm ++ tail) by (unfold tail; rewrite <- !app_assoc; reflexivity). rewrite Etail in *.
    assert (Hd4 : delim (w4 ++ st ++ r)) by (apply delim_blank; exact Hw4).
    assert (Hlead : forall ds x y, renders (lead ds) x -> delim y -> delim (x ++ y)).
    { intros [|d ds] x y Hx Hy; [inversion Hx; subst; exact Hy|]. cbn in Hx. destruct (renders_line _ _ Hx) as (w0 & x0 & -> & Hw0 & _). rewrite <- app_assoc. apply delim_blank. exact Hw0. }
    assert (Hd : delim tail) by (unfold tail; eapply Hlead; [exact Hsp|eapply Hlead; [exact Hsw|exact Hd4]]).
    assert (Eskip : skip (w4 ++ st ++ r) = st ++ r) by (rewrite skip_blank by exact Hw4; exact (render_term t st r Ht Hst)).
    assert (Hparam : open_word "param" (st ++ r) = None).
    { apply (term_open "param" t); try reflexivity; try assumption. intros n0 ts E Hne. apply (Hsig n0 ts E Hne). }
    assert (Hwhere : open_word "where" (st ++ r) = None).
    { apply (term_open "where" t); try reflexivity; try assumption. intros n0 ts E Hne. apply (Hsig n0 ts E Hne). }
    (* visibility *)
    assert (G : exists s', opt p_visibility (skip (sv ++ w ++ nm ++ tail)) = (Good v, s') /\ skip s' = nm ++ tail).
    { destruct v as [[|]|].
      - cbn [lead flat_map] in Hsv. rewrite app_nil_r in Hsv. destruct (renders_line _ _ Hsv) as (w1 & k & -> & Hw1 & Hk). apply renders_chars in Hk. subst k.
        rewrite <- app_assoc, skip_blank by exact Hw1. exists (w ++ nm ++ tail). split; [reflexivity|]. rewrite skip_blank by exact Hw. apply skip_name. exact Hnm.
      - cbn [lead flat_map] in Hsv. rewrite app_nil_r in Hsv. destruct (renders_line _ _ Hsv) as (w1 & k & -> & Hw1 & Hk). apply renders_chars in Hk. subst k.
        rewrite <- app_assoc, skip_blank by exact Hw1. exists (w ++ nm ++ tail). split; [reflexivity|]. rewrite skip_blank by exact Hw. apply skip_name. exact Hnm.
      - cbn in Hsv. inversion Hsv; subst. cbn [app]. exists (nm ++ tail). rewrite skip_blank by exact Hw. rewrite skip_name by exact Hnm. unfold opt. destruct (Hv eq_refl).
        rewrite vis_none by assumption. split; reflexivity. }
    destruct G as (s' & E1 & E2). unfold p_symbol. rewrite E1. rewrite E2. rewrite p_symbol_name_ok by assumption. unfold tail.
    destruct (many_ok (p_param read n) n any _ _ roomy_any (read_params n ps Hps)) with (s := sp) (rest := sw ++ w4 ++ st ++ r) as (r1 & E3 & E4).
    - exact Hsp.
    - exact I.
    - destruct ws as [|t0 ws].
      + cbn in Hsw. inversion Hsw; subst. cbn [app]. rewrite Eskip. unfold p_param. rewrite Hparam. reflexivity.
      + cbn [map] in Hsw. destruct (lead_text _ _ _ Hsw) as (w0 & x1 & x2 & -> & Hw0 & Hx1 & _). unfold print_constraint in Hx1.
        rewrite <- !app_assoc. rewrite skip_blank by exact Hw0. destruct (wrapped_text _ _ _ (x2 ++ w4 ++ st ++ r) Hx1) as (w' & sd & -> & _ & _).
        rewrite skip_solid by (split; [reflexivity|discriminate]). unfold p_param. rewrite open_text by (split; [reflexivity|discriminate]). reflexivity.
    - unfold tail in Hn. lens.
    - rewrite E3, E4. destruct (many_ok (p_where read n) n any _ _ roomy_any (read_wraps "where" ws n ltac:(split; [reflexivity|discriminate]) ltac:(discriminate) Hws)) with (s := sw) (rest := w4 ++ st ++ r) as (r2 & E5 & E6).
      + exact Hsw.
      + exact I.
      + rewrite Eskip. unfold p_where, p_wrapped. rewrite Hwhere. reflexivity.
      + unfold tail in Hn. lens.
      + rewrite E5, E6, Eskip. destruct (read_term show read t Ht) as (Hp & _). rewrite (Hp n st r Hst Hr); [reflexivity|]. unfold tail in Hn. lens.
  Qed.

  (** ** Ports *)
  Lemma read_link n l : link_name l -> parses n delim p_link (print_link l) l /\ starty (print_link l).
  Proof.
    intros Hl. split.
    - intros s r Hs Hr _. unfold print_link in Hs. destruct (renders_app _ _ _ Hs) as (a & b & -> & Ha & Hb). apply renders_chars in Ha, Hb. subst a b. cbn [app].
      unfold p_link. change (lit [37] (text "%" ++ l ++ r)) with (Some (l ++ r)). cbv iota. rewrite <- app_assoc. change (lit [37] (text "%" ++ l ++ r)) with (Some (l ++ r)). cbv iota.
      rewrite span_stop; [reflexivity|apply names_rest; exact Hl|]. destruct r as [|c r]; [trivial|]. eapply delim_name_char. exact Hr.
    - exists 37, (chars l). split; [reflexivity|]. split; [split; [reflexivity|discriminate]|]. repeat split; discriminate.
  Qed.
  Lemma read_port_list l s r : Forall link_name l -> renders (brackets (map print_link l)) s -> p_port_list (s ++ r) = Some (Good l, r).
  Proof.
    intros Hl Hs. destruct (brackets_text _ _ Hs) as (s1 & -> & Hs1). cbn [app]. rewrite <- app_assoc. cbn [app]. unfold p_port_list. change (word "[" (91 :: s1 ++ 93 :: r)) with (Some (s1 ++ 93 :: r)). cbv iota.
    destruct (many_lines p_link (S (length (s1 ++ 93 :: r))) delim (map print_link l) l roomy_delim) with (s := s1) (rest := 93 :: r) as (r' & E & Er).
    - clear - Hl. induction Hl; constructor; [apply read_link; assumption|assumption].
    - exact Hs1.
    - cbn. tauto.
    - rewrite skip_solid by apply close_solid. unfold p_link. rewrite lit_first by lia. reflexivity.
    - lia.
    - rewrite E, Er. rewrite skip_solid by apply close_solid. reflexivity.
  Qed.
  Lemma port_list_first c s : c <> 91 -> p_port_list (c :: s) = None.
  Proof. intros H. unfold p_port_list. rewrite word_first by (cbn; congruence). reflexivity. Qed.

  (** ** The head of a node or region *)
  Definition quiet (s : str) : Prop := p_port_list (skip s) = None /\ open_word "signature" (skip s) = None /\ open_word "meta" (skip s) = None.
  Definition sig_docs (g : option term) : list doc := opt_doc (fun t => print_signature (pt t)) g.
  Definition meta_docs (ms : list term) : list doc := map (fun t => print_meta (pt t)) ms.
  (** The text that starts with a wrapped term. *)
  Lemma lead_wrapped k d ds s r : renders (lead (parens [kw k; d] :: ds)) s -> exists y, skip (s ++ r) = 40 :: text k ++ y.
  Proof.
    intros Hs. destruct (lead_text _ _ _ Hs) as (w & sd & s' & -> & Hw & Hsd & Hs'). rewrite <- !app_assoc, skip_blank by exact Hw.
    destruct (wrapped_text _ _ _ (s' ++ r) Hsd) as (w' & q & Eq & _ & _). rewrite Eq. rewrite skip_solid by apply startc_paren. eauto.
  Qed.
  Lemma metas_quiet ms s r : renders (lead (meta_docs ms)) s -> quiet r -> p_port_list (skip (s ++ r)) = None /\ open_word "signature" (skip (s ++ r)) = None.
  Proof.
    intros Hs (H1 & H2 & H3). destruct ms as [|t ms]; [cbn in Hs; inversion Hs; subst; split; assumption|]. unfold meta_docs in Hs. cbn [map] in Hs. unfold print_meta at 1 in Hs.
    destruct (lead_wrapped _ _ _ _ r Hs) as (y & ->). split; [apply port_list_first; discriminate|]. rewrite open_text by (split; [reflexivity|discriminate]). reflexivity.
  Qed.
  Lemma lead_nil s : renders (lead []) s -> s = []. Proof. intros H. inversion H. reflexivity. Qed.

  Lemma read_metas n ms s r : Forall (ok_term show read) ms -> renders (lead (meta_docs ms)) s -> open_word "meta" (skip r) = None -> (length (s ++ r) < n)%nat ->
    exists r', many (p_meta read n) (skip (s ++ r)) = (Good (map norm ms), r') /\ skip r' = skip r.
  Proof.
    intros Hm Hs Hr Hn. apply (many_ok (p_meta read n) n any (meta_docs ms) (map norm ms) roomy_any); [|exact Hs|exact I| |exact Hn].
    - apply (read_wraps "meta" ms n); [split; [reflexivity|discriminate]|discriminate|exact Hm].
    - unfold p_meta, p_wrapped. rewrite Hr. reflexivity.
  Qed.
  Lemma read_head n ins outs g ms s r : Forall link_name ins -> Forall link_name outs -> ok_opt show read g -> Forall (ok_term show read) ms ->
    renders (lead (print_ports ins outs ++ sig_docs g ++ meta_docs ms)) s -> quiet r -> (length (s ++ r) < n)%nat ->
    exists r', p_head read n (skip (s ++ r)) = (Good ((ins, outs), option_map norm g, map norm ms), r') /\ skip r' = skip r.
  Proof.
    intros Hi Ho Hg Hm Hs Hq Hn. rewrite !lead_app in Hs. destruct (renders_app _ _ _ Hs) as (sp & s1 & -> & Hsp & Hs1). destruct (renders_app _ _ _ Hs1) as (sg & sm & -> & Hsg & Hsm).
    rewrite <- !app_assoc in *. destruct (metas_quiet ms sm r Hsm Hq) as [Q1 Q2].
    assert (P1 : exists o y', opt p_ports (skip (sp ++ sg ++ sm ++ r)) = (Good o, y') /\ skip y' = skip (sg ++ sm ++ r) /\ ports_or o = (ins, outs)).
    { assert (Hnone : p_port_list (skip (sg ++ sm ++ r)) = None).
      { destruct g as [t|]; cbn [sig_docs opt_doc] in Hsg.
        - unfold sig_docs, opt_doc, print_signature in Hsg. destruct (lead_wrapped _ _ _ _ (sm ++ r) Hsg) as (y & ->). apply port_list_first. discriminate.
        - apply lead_nil in Hsg. subst sg. exact Q1. }
      assert (Hcase : (ins = [] /\ outs = []) \/ print_ports ins outs = [lines [brackets (map print_link ins); brackets (map print_link outs)]]).
      { destruct ins; [destruct outs; [left; split; reflexivity|right; reflexivity]|right; reflexivity]. }
      destruct Hcase as [[-> ->] |Ep].
      - apply lead_nil in Hsp. subst sp. exists None, (skip (sg ++ sm ++ r)). cbn [app]. unfold opt, p_ports. rewrite Hnone. split; [reflexivity|]. split; [apply skip_skip|reflexivity].
      - rewrite Ep in Hsp. destruct (lead_text _ _ _ Hsp) as (w & sb & s' & -> & Hw & Hsb & Hs'). apply lead_nil in Hs'. subst s'. rewrite app_nil_r.
        rewrite lines_lead in Hsb. destruct (renders_app _ _ _ Hsb) as (sb1 & x & -> & Hb1 & Hx). destruct (lead_text _ _ _ Hx) as (w2 & sb2 & s' & -> & Hw2 & Hb2 & Hs'). apply lead_nil in Hs'. subst s'. rewrite app_nil_r.
        exists (Some (ins, outs)), (sg ++ sm ++ r). split; [|split; reflexivity]. rewrite <- !app_assoc. rewrite skip_blank by exact Hw.
        destruct (brackets_text _ _ Hb1) as (b1 & E1 & _). destruct (brackets_text _ _ Hb2) as (b2 & E2 & _).
        replace (skip (sb1 ++ w2 ++ sb2 ++ sg ++ sm ++ r)) with (sb1 ++ w2 ++ sb2 ++ sg ++ sm ++ r) by (rewrite E1; symmetry; apply skip_solid; apply startc_bracket).
        unfold opt, p_ports. rewrite (read_port_list ins sb1 _ Hi Hb1). rewrite skip_blank by exact Hw2.
        replace (skip (sb2 ++ sg ++ sm ++ r)) with (sb2 ++ sg ++ sm ++ r) by (rewrite E2; symmetry; apply skip_solid; apply startc_bracket).
        rewrite (read_port_list outs sb2 _ Ho Hb2). reflexivity. }
    destruct P1 as (o & y1 & E1 & E1' & Eo).
    assert (P2 : exists y', opt (p_signature read n) (skip (sg ++ sm ++ r)) = (Good (option_map norm g), y') /\ skip y' = skip (sm ++ r)).
    { destruct g as [t|].
      - unfold sig_docs, opt_doc in Hsg. destruct (lead_text _ _ _ Hsg) as (w & sd & s' & -> & Hw & Hsd & Hs'). apply lead_nil in Hs'. subst s'. rewrite app_nil_r. exists (sm ++ r). split; [|reflexivity].
        rewrite <- !app_assoc. rewrite skip_blank by exact Hw. destruct (read_wrapped "signature" t n) as [Hp Hst]; [split; [reflexivity|discriminate]|discriminate|exact Hg|].
        destruct (starty_text _ _ Hst Hsd) as (c & q & Eq & Hc). replace (skip (sd ++ sm ++ r)) with (sd ++ sm ++ r) by (rewrite Eq; symmetry; apply skip_solid; apply Hc).
        unfold opt, p_signature. rewrite (Hp sd (sm ++ r) Hsd I); [reflexivity|lens].
      - apply lead_nil in Hsg. subst sg. exists (skip (sm ++ r)). cbn [app]. unfold opt, p_signature, p_wrapped. rewrite Q2. split; [reflexivity|apply skip_skip]. }
    destruct P2 as (y2 & E2 & E2'). destruct (read_metas n ms sm r Hm Hsm (proj2 (proj2 Hq))) as (y3 & E3 & E3'); [lens|].
    exists y3. split; [|exact E3']. unfold p_head. rewrite E1, E1', E2, E2', E3. cbn [rbind rmap]. rewrite Eo. reflexivity.
  Qed.

  (** ** Regions and nodes: their texts *)
  Lemma lines_lines (a : doc) b c : lines (lines (a :: b) :: c) = a ++ lead (b ++ c).
  Proof. rewrite !lines_lead, lead_app, app_assoc. reflexivity. Qed.
  Lemma print_region_docs k src tgt ns ms g : print_region show (Region k src tgt ns ms g) =
    parens (lines (print_kind k :: print_ports src tgt) :: sig_docs g ++ meta_docs ms ++ map (print_node show) ns).
  Proof. reflexivity. Qed.
  Lemma print_node_docs o ins outs rs ms g : print_node show (Node o ins outs rs ms g) =
    parens (lines (print_operation pt o ++ print_ports ins outs) :: sig_docs g ++ meta_docs ms ++ map (print_region show) rs).
  Proof. reflexivity. Qed.
  Definition kind_text (k : region_kind) : str := match k with DataFlow => text "dfg" | ControlFlow => text "cfg" | ModuleRegion => text "mod" end.
  Lemma region_text k src tgt ns ms g s : renders (print_region show (Region k src tgt ns ms g)) s ->
    exists s', s = 40 :: (kind_text k ++ s') ++ [41] /\ renders (lead ((print_ports src tgt ++ sig_docs g ++ meta_docs ms) ++ map (print_node show) ns)) s'.
  Proof.
    rewrite print_region_docs. intros H. destruct (parens_text _ _ H) as (s1 & -> & Hs1). rewrite lines_lines in Hs1. destruct (renders_app _ _ _ Hs1) as (a & s' & -> & Ha & Hs').
    exists s'. split; [|rewrite <- !app_assoc; exact Hs']. replace a with (kind_text k); [reflexivity|]. symmetry. destruct k; apply renders_chars in Ha; exact Ha.
  Qed.
  Lemma node_text o o1 os ins outs rs ms g s : print_operation pt o = o1 :: os -> renders (print_node show (Node o ins outs rs ms g)) s ->
    exists s1 s', s = 40 :: (s1 ++ s') ++ [41] /\ renders o1 s1 /\ renders (lead (os ++ (print_ports ins outs ++ sig_docs g ++ meta_docs ms) ++ map (print_region show) rs)) s'.
  Proof.
    intros Eo H. rewrite print_node_docs in H. destruct (parens_text _ _ H) as (x & -> & Hx). rewrite Eo in Hx. cbn [app] in Hx. rewrite lines_lines in Hx. destruct (renders_app _ _ _ Hx) as (s1 & s' & -> & H1 & H').
    exists s1, s'. split; [reflexivity|]. split; [exact H1|]. rewrite <- !app_assoc in *. exact H'.
  Qed.
  Lemma regions_quiet rs s r : renders (lead (map (print_region show) rs)) s -> quiet (s ++ 41 :: r).
  Proof.
    intros Hs. destruct rs as [|x rs].
    - apply lead_nil in Hs. subst s. cbn [app]. unfold quiet. rewrite skip_solid by apply close_solid. split; [apply port_list_first; discriminate|]. split; apply open_first; discriminate.
    - cbn [map] in Hs. destruct (lead_text _ _ _ Hs) as (w & sx & s' & -> & Hw & Hsx & _). destruct x as [k src tgt ns ms g]. destruct (region_text _ _ _ _ _ _ _ Hsx) as (s1 & -> & _).
      unfold quiet. rewrite <- !app_assoc. rewrite skip_blank by exact Hw. cbn [app]. rewrite skip_solid by apply startc_paren. split; [apply port_list_first; discriminate|]. rewrite <- !app_assoc.
      destruct k; rewrite !open_text by (split; [reflexivity|discriminate]); split; reflexivity.
  Qed.

  (** A word at the start of a term, without parenthesis. *)
  Lemma term_word k t s r : plain k = true -> (exists c q, text k = c :: q /\ letter c) -> ok_term show read t -> (forall n, t = Apply n [] -> ~ starts k n) ->
    renders (pt t) s -> delim r -> word k (s ++ r) = None.
  Proof.
    intros Hk (a & ak & Ek & Ha) Hok Hn Hs Hr.
    assert (Hfirst : forall c q, s = c :: q -> ~ letter c -> word k (s ++ r) = None).
    { intros c q -> Hc. apply word_first. rewrite Ek. intros ->. tauto. }
    destruct t as [|n|n ts|ps|l|ps|g].
    - apply renders_chars in Hs. eapply Hfirst; [exact Hs|]. unfold letter. cbn. lia.
    - apply var_text in Hs. eapply Hfirst; [exact Hs|unfold letter; lia].
    - cbn [ok_term] in Hok. destruct Hok as (Hsn & _). destruct ts as [|t ts].
      + apply renders_chars in Hs. subst s. destruct (word k (n ++ r)) as [q|] eqn:E; [|reflexivity]. destruct (word_name k n r q Hk Hsn Hr E) as (r' & En & _). exfalso. apply (Hn n eq_refl). exists r'. exact En.
      + change (pt (Apply n (t :: ts))) with (parens (chars n :: map pt (t :: ts))) in Hs. destruct (parens_text _ _ Hs) as (s1 & E & _). eapply Hfirst; [exact E|unfold letter; lia].
    - destruct (brackets_text _ _ Hs) as (s1 & E & _). eapply Hfirst; [exact E|unfold letter; lia].
    - change (pt (Lit l)) with (print_literal show l) in Hs. destruct l as [x|m|b|f]; cbn [print_literal] in Hs.
      + apply renders_chars in Hs. eapply Hfirst; [exact Hs|unfold letter; lia].
      + apply renders_chars in Hs. destruct (show_nat_ok m) as (_ & Hd & Hne). destruct (show_nat m) as [|c q] eqn:Eq; [congruence|]. eapply Hfirst; [exact Hs|]. inversion Hd as [|? ? Hc _]; subst. unfold digit, letter in *. lia.
      + destruct (parens_text _ _ Hs) as (s1 & E & _). eapply Hfirst; [exact E|unfold letter; lia].
      + apply renders_chars in Hs. destruct Hok as [(sg & a' & b & e & E & Hsg & Ha' & _) _]. destruct (sign_digit_start (show f)) as (c & q & Eq & _ & Hc); [exists sg, a', (46 :: b ++ e); tauto|].
        eapply Hfirst; [rewrite Hs; exact Eq|unfold digit, letter in *; lia].
    - change (pt (Tuple ps)) with (parens (chars (text "tuple") :: tuple_docs show ps)) in Hs. destruct (parens_text _ _ Hs) as (s1 & E & _). eapply Hfirst; [exact E|unfold letter; lia].
    - destruct Hok.
  Qed.

  (** ** Alternatives *)
  Notation regs n := (many (p_region read n)).
  Lemma first_skip {A} (p : parser A) ps s : p s = None -> first (p :: ps) s = first ps s.
  Proof. intros H. cbn [first]. rewrite H. reflexivity. Qed.
  Lemma first_take {A} (p : parser A) ps s x : p s = Some x -> first (p :: ps) s = Some x.
  Proof. intros H. cbn [first]. rewrite H. reflexivity. Qed.
  Lemma plain_none n f k o s : open_word k s = None -> p_plain_node read n f k o s = None.
  Proof. intros H. unfold p_plain_node. rewrite H. reflexivity. Qed.
  Lemma symbol_none n k mk f s : open_word k s = None -> p_symbol_node read n k mk f s = None.
  Proof. intros H. unfold p_symbol_node. rewrite H. reflexivity. Qed.
  Lemma alias_none n s : open_word "define-alias" s = None -> p_alias_node read n s = None.
  Proof. intros H. unfold p_alias_node. rewrite H. reflexivity. Qed.
  Lemma import_none n s : open_word "import" s = None -> p_import_node read n s = None.
  Proof. intros H. unfold p_import_node. rewrite H. reflexivity. Qed.
  Lemma region_none n c s : c <> 40 -> p_region read n (c :: s) = None.
  Proof. intros H. destruct n; [reflexivity|]. cbn [p_region]. rewrite word_first by (cbn; congruence). reflexivity. Qed.

  (** A keyword that goes on: the rest cannot be read. *)
  Lemma body_stuck n o c s : solid c -> c <> 40 -> c <> 41 -> c <> 91 -> p_body read n (regs n) o (skip (c :: s)) = None.
  Proof.
    intros Hc H1 H2 H3. rewrite skip_solid by exact Hc. unfold p_body, p_head. unfold opt at 1, p_ports. rewrite port_list_first by exact H3. rewrite skip_solid by exact Hc.
    unfold opt, p_signature, p_wrapped. rewrite open_first by exact H1. rewrite skip_solid by exact Hc.
    unfold many at 1. unfold p_meta, p_wrapped. rewrite open_first by exact H1. rewrite skip_solid by exact Hc. unfold many. rewrite region_none by exact H1.
    unfold close. rewrite skip_solid by exact Hc. rewrite word_first by (cbn; congruence). reflexivity.
  Qed.
  Lemma plain_stuck n k o t s r : plain k = true -> (exists c q, text k = c :: q /\ letter c) -> In (text k) keywords -> ok_term show read t -> renders (pt t) s -> delim r ->
    p_plain_node read n (regs n) k o (40 :: s ++ r) = None.
  Proof.
    intros Hk Hl Hin Hok Hs Hr. unfold p_plain_node. assert (Hst := proj1 (proj2 (read_term show read t Hok))). destruct (starty_text _ _ Hst Hs) as (c & q & Eq & Hc).
    rewrite open_text by (rewrite Eq; apply Hc).
    destruct (match t with Apply n [] => Some n | _ => None end) as [nm|] eqn:Et.
    - destruct t as [| |n' [|]| | | |]; try discriminate Et. injection Et as ->. cbn [ok_term] in Hok. destruct Hok as (Hn & _). apply renders_chars in Hs. rewrite Hs. destruct (word k (nm ++ r)) as [x|] eqn:E; [|reflexivity].
      destruct (word_name k nm r x Hk Hn Hr E) as (r' & En & -> & [-> |(c' & q' & -> & Hc')]).
      + exfalso. rewrite app_nil_r in En. revert En. apply name_keyword; assumption.
      + cbn [app]. apply body_stuck; [apply name_dot_solid; exact Hc'|..]; unfold name_char, letter, digit in Hc'; lia.
    - rewrite (term_word k t s r Hk Hl Hok); [reflexivity| |exact Hs|exact Hr]. intros n' ->. discriminate Et.
  Qed.

  Definition reads_region (x : region) : Prop := ok_region show read x -> forall n, parses n any (p_region read n) (print_region show x) (norm_region x).
  Definition reads_node (x : node) : Prop := ok_node show read x -> forall n, parses n any (p_node read n) (print_node show x) (norm_node x).
  Lemma regions_read n rs : Forall reads_region rs -> all (ok_region show read) rs ->
    Forall2 (fun d x => parses n any (p_region read n) d x /\ starty d) (map (print_region show) rs) (map norm_region rs).
  Proof.
    induction 1 as [|x rs Hx _ IH]; intros H; [constructor|]. destruct H as [H1 H2]. constructor; [split; [apply Hx; exact H1|]|apply IH; exact H2].
    destruct x. rewrite print_region_docs. apply starty_parens.
  Qed.
  Lemma read_regions n rs s r : Forall reads_region rs -> all (ok_region show read) rs -> renders (lead (map (print_region show) rs)) s -> (length (s ++ 41%N :: r) < n)%nat ->
    exists r', regs n (skip (s ++ 41 :: r)) = (Good (map norm_region rs), r') /\ skip r' = 41 :: r.
  Proof.
    intros H Hok Hs Hn. destruct (many_ok (p_region read n) n any _ _ roomy_any (regions_read n rs H Hok)) with (s := s) (rest := 41 :: r) as (r' & E & Er).
    - exact Hs.
    - exact I.
    - rewrite skip_solid by apply close_solid. apply region_none. discriminate.
    - exact Hn.
    - exists r'. split; [exact E|]. rewrite Er. apply skip_solid. apply close_solid.
  Qed.
  Lemma read_body n o ins outs g ms rs s r : Forall link_name ins -> Forall link_name outs -> ok_opt show read g -> Forall (ok_term show read) ms ->
    Forall reads_region rs -> all (ok_region show read) rs ->
    renders (lead ((print_ports ins outs ++ sig_docs g ++ meta_docs ms) ++ map (print_region show) rs)) s -> (length (s ++ 41%N :: r) < n)%nat ->
    p_body read n (regs n) (Good o) (skip (s ++ 41 :: r)) = Some (Good (Node o ins outs (map norm_region rs) (map norm ms) (option_map norm g)), r).
  Proof.
    intros Hi Ho Hg Hm Hrs Hok Hs Hn. rewrite lead_app in Hs. destruct (renders_app _ _ _ Hs) as (sh & sr & -> & Hsh & Hsr). rewrite <- app_assoc in *.
    destruct (read_head n ins outs g ms sh (sr ++ 41 :: r) Hi Ho Hg Hm Hsh) as (r1 & E1 & E1'); [exact (regions_quiet rs sr r Hsr)|exact Hn|].
    destruct (read_regions n rs sr r Hrs Hok Hsr) as (r2 & E2 & E2'); [lens|].
    unfold p_body. rewrite E1, E1', E2. unfold close. rewrite E2'. reflexivity.
  Qed.
  Lemma delim_lead ds s r : renders (lead ds) s -> delim r -> delim (s ++ r).
  Proof.
    intros Hx Hy. destruct ds as [|d ds]; [inversion Hx; subst; exact Hy|]. destruct (lead_text _ _ _ Hx) as (w0 & x0 & x1 & -> & Hw0 & _). rewrite <- app_assoc. apply delim_blank. exact Hw0.
  Qed.
  Lemma read_plain n k o ins outs g ms rs s r : solid (hd 0 (text k)) -> text k <> [] -> Forall link_name ins -> Forall link_name outs -> ok_opt show read g -> Forall (ok_term show read) ms ->
    Forall reads_region rs -> all (ok_region show read) rs ->
    renders (lead ((print_ports ins outs ++ sig_docs g ++ meta_docs ms) ++ map (print_region show) rs)) s -> (length (s ++ 41%N :: r) < n)%nat ->
    p_plain_node read n (regs n) k o (40 :: text k ++ s ++ 41 :: r) = Some (Good (Node o ins outs (map norm_region rs) (map norm ms) (option_map norm g)), r).
  Proof.
    intros Hk Hne. intros. unfold p_plain_node. rewrite open_text by (destruct (text k); [congruence|exact Hk]). unfold word. rewrite lit_app. apply read_body; assumption.
  Qed.
  (** Symbol nodes. *)
  Lemma read_symbol_node n k mk f sy ms rs s r : solid (hd 0 (text k)) -> text k <> [] -> ok_symbol show read sy -> Forall (ok_term show read) ms ->
    Forall reads_region rs -> all (ok_region show read) rs -> (f = Some (regs n) \/ f = None /\ rs = []) ->
    renders (lead (symbol_docs sy ++ meta_docs ms ++ map (print_region show) rs)) s -> (length (s ++ 41%N :: r) < n)%nat ->
    p_symbol_node read n k mk f (40 :: text k ++ s ++ 41 :: r) = Some (Good (Node (mk (norm_symbol sy)) [] [] (map norm_region rs) (map norm ms) None), r).
  Proof.
    intros Hk Hne Hsy Hm Hrs Hok Hf Hs Hn. rewrite !lead_app in Hs. destruct (renders_app _ _ _ Hs) as (s1 & s2 & -> & Hs1 & Hs2). destruct (renders_app _ _ _ Hs2) as (sm & sr & -> & Hsm & Hsr). rewrite <- !app_assoc in *.
    unfold p_symbol_node. rewrite open_text by (destruct (text k); [congruence|exact Hk]). unfold word. rewrite lit_app.
    rewrite (read_symbol n sy s1 (sm ++ sr ++ 41 :: r) Hsy Hs1); [|eapply delim_lead; [exact Hsm|eapply delim_lead; [exact Hsr|cbn; tauto]]|exact Hn].
    destruct (read_metas n ms sm (sr ++ 41 :: r) Hm Hsm) as (y & E & Ey); [apply (regions_quiet rs sr r Hsr)|lens|]. rewrite E.
    destruct Hf as [-> |[-> ->]].
    - rewrite Ey. destruct (read_regions n rs sr r Hrs Hok Hsr) as (r2 & E2 & E2'); [lens|]. rewrite E2. unfold close. rewrite E2'. reflexivity.
    - apply lead_nil in Hsr. subst sr. unfold close. rewrite Ey. cbn [app]. rewrite skip_solid by apply close_solid. reflexivity.
  Qed.
  Lemma read_alias_node n sy t ms s r : ok_symbol show read sy -> ok_term show read t -> Forall (ok_term show read) ms ->
    renders (lead ((symbol_docs sy ++ [pt t]) ++ meta_docs ms)) s -> (length (s ++ 41%N :: r) < n)%nat ->
    p_alias_node read n (40 :: text "define-alias" ++ s ++ 41 :: r) = Some (Good (Node (DefineAlias (norm_symbol sy) (norm t)) [] [] [] (map norm ms) None), r).
  Proof.
    intros Hsy Ht Hm Hs Hn. rewrite !lead_app in Hs. destruct (renders_app _ _ _ Hs) as (s0 & sm & -> & Hs0 & Hsm). destruct (renders_app _ _ _ Hs0) as (s1 & s2 & -> & Hs1 & Hs2).
    destruct (lead_text _ _ _ Hs2) as (w & st & s' & -> & Hw & Hst & Hs'). apply lead_nil in Hs'. subst s'. rewrite app_nil_r in *. rewrite <- !app_assoc in *.
    unfold p_alias_node. rewrite open_text by (split; [reflexivity|discriminate]). unfold word. rewrite lit_app.
    rewrite (read_symbol n sy s1 (w ++ st ++ sm ++ 41 :: r) Hsy Hs1); [|apply delim_blank; exact Hw|exact Hn].
    rewrite skip_blank by exact Hw. rewrite (render_term t st (sm ++ 41 :: r) Ht Hst). destruct (read_term show read t Ht) as (Hp & _).
    rewrite (Hp n st (sm ++ 41 :: r) Hst); [|eapply delim_lead; [exact Hsm|cbn; tauto]|lens].
    destruct (read_metas n ms sm (41 :: r) Hm Hsm) as (y & E & Ey); [rewrite skip_solid by apply close_solid; apply open_first; discriminate|lens|]. rewrite E. unfold close. rewrite Ey.
    rewrite skip_solid by apply close_solid. reflexivity.
  Qed.
  Lemma read_import_node n nm ms s r : symbol_name nm -> Forall (ok_term show read) ms -> renders (lead ([chars nm] ++ meta_docs ms)) s -> (length (s ++ 41%N :: r) < n)%nat ->
    p_import_node read n (40 :: text "import" ++ s ++ 41 :: r) = Some (Good (Node (Import nm) [] [] [] (map norm ms) None), r).
  Proof.
    intros Hnm Hm Hs Hn. rewrite lead_app in Hs. destruct (renders_app _ _ _ Hs) as (s0 & sm & -> & Hs0 & Hsm). destruct (lead_text _ _ _ Hs0) as (w & st & s' & -> & Hw & Hst & Hs'). apply lead_nil in Hs'. subst s'.
    apply renders_chars in Hst. subst st. rewrite app_nil_r in *. rewrite <- !app_assoc in *. unfold p_import_node. rewrite open_text by (split; [reflexivity|discriminate]). unfold word. rewrite lit_app.
    rewrite skip_blank by exact Hw. rewrite skip_name by exact Hnm. rewrite p_symbol_name_ok; [|exact Hnm|eapply delim_lead; [exact Hsm|cbn; tauto]].
    destruct (read_metas n ms sm (41 :: r) Hm Hsm) as (y & E & Ey); [rewrite skip_solid by apply close_solid; apply open_first; discriminate|lens|]. rewrite E. unfold close. rewrite Ey.
    rewrite skip_solid by apply close_solid. reflexivity.
  Qed.
  Lemma read_custom_node n t ins outs g ms rs st s r : ok_term show read t -> renders (pt t) st -> Forall link_name ins -> Forall link_name outs -> ok_opt show read g -> Forall (ok_term show read) ms ->
    Forall reads_region rs -> all (ok_region show read) rs ->
    renders (lead ((print_ports ins outs ++ sig_docs g ++ meta_docs ms) ++ map (print_region show) rs)) s -> (length (st ++ s ++ 41%N :: r) < n)%nat ->
    p_custom_node read n (regs n) (40 :: st ++ s ++ 41 :: r) = Some (Good (Node (Custom (norm t)) ins outs (map norm_region rs) (map norm ms) (option_map norm g)), r).
  Proof.
    intros Ht Hst Hi Ho Hg Hm Hrs Hok Hs Hn. unfold p_custom_node. change (word "(" (40 :: st ++ s ++ 41 :: r)) with (Some (st ++ s ++ 41 :: r)). cbv iota.
    rewrite (render_term t st _ Ht Hst). destruct (read_term show read t Ht) as (Hp & _). rewrite (Hp n st (s ++ 41 :: r) Hst); [|eapply delim_lead; [exact Hs|cbn; tauto]|exact Hn].
    cbn [rmap rbind]. apply read_body; try assumption. lens.
  Qed.

  (** ** Induction *)
  Lemma read_node o ins outs rs ms g : Forall reads_region rs -> reads_node (Node o ins outs rs ms g).
  Proof.
    intros Hrs (Ho & Hmay & Hi & Hu & Hok & Hm & Hg) n s r Hs _ Hn. unfold p_node.
    assert (Hop : exists o1 os, print_operation pt o = o1 :: os) by (destruct o; cbn; eauto). destruct Hop as (o1 & os & Eop).
    destruct (node_text o o1 os ins outs rs ms g s Eop Hs) as (s1 & s' & -> & Hs1 & Hs'). cbn [app]. rewrite <- !app_assoc. cbn [app]. cbn [norm_node].
    assert (Hlen : (length (s1 ++ s' ++ 41%N :: r) < n)%nat) by lens. assert (Hlen' : (length (s' ++ 41%N :: r) < n)%nat) by lens. clear Hn.
    assert (Gsolid : solid (hd 0 (s1 ++ s' ++ 41 :: r)) -> forall k, open_word k (40 :: s1 ++ s' ++ 41 :: r) = word k (s1 ++ s' ++ 41 :: r)) by (intros H k; apply open_text; exact H).
    unfold node_parsers.
    destruct o as [| | | |sy|sy|t|sy t|sy|  |  |sy|sy|nm]; cbn [print_operation] in Eop; injection Eop as <- <-; cbn [norm_operation ok_operation may_have] in *;
      try (apply renders_chars in Hs1; subst s1).
    - destruct Ho.
    - apply first_take. apply read_plain; try assumption; try exact Hs'; try (split; [reflexivity|discriminate]); discriminate.
    - rewrite first_skip by (apply plain_none; reflexivity). apply first_take. apply read_plain; try assumption; try exact Hs'; try (split; [reflexivity|discriminate]); discriminate.
    - do 2 rewrite first_skip by (apply plain_none; reflexivity). apply first_take. apply read_plain; try assumption; try exact Hs'; try (split; [reflexivity|discriminate]); discriminate.
    - destruct Hmay as (-> & -> & ->). do 3 rewrite first_skip by (apply plain_none; reflexivity). apply first_take.
      apply read_symbol_node; try assumption; try exact Hs'; try (split; [reflexivity|discriminate]); try discriminate. left. reflexivity.
    - destruct Hmay as (-> & -> & -> & ->). do 3 rewrite first_skip by (apply plain_none; reflexivity). rewrite first_skip by (apply symbol_none; reflexivity). apply first_take.
      apply read_symbol_node; try assumption; try exact Hs'; try (split; [reflexivity|discriminate]); try discriminate. right. split; reflexivity.
    - destruct Ho as [Ht Hno]. assert (Hd : delim (s' ++ 41 :: r)) by (eapply delim_lead; [exact Hs'|cbn; tauto]).
      assert (Hw : forall k, plain k = true -> (exists c q, text k = c :: q /\ letter c) -> (forall nm, t = Apply nm [] -> ~ starts k nm) -> open_word k (40 :: s1 ++ s' ++ 41 :: r) = None).
      { intros k Hk Hl Hst. rewrite Gsolid; [exact (term_word k t s1 _ Hk Hl Ht Hst Hs1 Hd)|]. assert (Hst' := proj1 (proj2 (read_term show read t Ht))). destruct (starty_text _ _ Hst' Hs1) as (c & q & -> & Hc). apply Hc. }
      assert (Hstuck : forall k o, plain k = true -> (exists c q, text k = c :: q /\ letter c) -> In (text k) keywords -> p_plain_node read n (regs n) k o (40 :: s1 ++ s' ++ 41 :: r) = None).
      { intros k o Hk Hl Hin. exact (plain_stuck n k o t s1 _ Hk Hl Hin Ht Hs1 Hd). }
      assert (Hst : forall k, In k ["import"; "meta"; "signature"; "define-func"; "declare-func"; "define-alias"; "declare-alias"; "declare-ctr"; "declare-operation"]%string -> forall nm, t = Apply nm [] -> ~ starts k nm).
      { intros k Hin nm E. specialize (Hno nm E). rewrite Forall_forall in Hno. apply Hno. exact Hin. }
      do 3 rewrite first_skip by (apply Hstuck; [reflexivity|eexists _, _; split; [reflexivity|unfold letter; cbn; lia]|cbn; tauto]).
      do 2 rewrite first_skip by (apply symbol_none; apply Hw; [reflexivity|eexists _, _; split; [reflexivity|unfold letter; cbn; lia]|apply Hst; cbn; tauto]).
      rewrite first_skip by (apply alias_none; apply Hw; [reflexivity|eexists _, _; split; [reflexivity|unfold letter; cbn; lia]|apply Hst; cbn; tauto]).
      do 3 rewrite first_skip by (apply symbol_none; apply Hw; [reflexivity|eexists _, _; split; [reflexivity|unfold letter; cbn; lia]|apply Hst; cbn; tauto]).
      do 2 rewrite first_skip by (apply Hstuck; [reflexivity|eexists _, _; split; [reflexivity|unfold letter; cbn; lia]|cbn; tauto]).
      rewrite first_skip by (apply import_none; apply Hw; [reflexivity|eexists _, _; split; [reflexivity|unfold letter; cbn; lia]|apply Hst; cbn; tauto]).
      apply first_take. apply read_custom_node; assumption.
    - destruct Hmay as (-> & -> & -> & ->). destruct Ho as [Hsy Ht]. do 3 rewrite first_skip by (apply plain_none; reflexivity). do 2 rewrite first_skip by (apply symbol_none; reflexivity). apply first_take.
      cbn [map print_ports sig_docs opt_doc app] in Hs'. rewrite app_nil_r in Hs'. apply read_alias_node; assumption.
    - destruct Hmay as (-> & -> & -> & ->). do 3 rewrite first_skip by (apply plain_none; reflexivity). do 2 rewrite first_skip by (apply symbol_none; reflexivity). rewrite first_skip by (apply alias_none; reflexivity). apply first_take.
      apply read_symbol_node; try assumption; try exact Hs'; try (split; [reflexivity|discriminate]); try discriminate. right. split; reflexivity.
    - do 3 rewrite first_skip by (apply plain_none; reflexivity). do 2 rewrite first_skip by (apply symbol_none; reflexivity). rewrite first_skip by (apply alias_none; reflexivity).
      do 3 rewrite first_skip by (apply symbol_none; reflexivity). apply first_take. apply read_plain; try assumption; try exact Hs'; try (split; [reflexivity|discriminate]); discriminate.
    - do 3 rewrite first_skip by (apply plain_none; reflexivity). do 2 rewrite first_skip by (apply symbol_none; reflexivity). rewrite first_skip by (apply alias_none; reflexivity).
      do 3 rewrite first_skip by (apply symbol_none; reflexivity). rewrite first_skip by (apply plain_none; reflexivity). apply first_take. apply read_plain; try assumption; try exact Hs'; try (split; [reflexivity|discriminate]); discriminate.
    - destruct Hmay as (-> & -> & -> & ->). do 3 rewrite first_skip by (apply plain_none; reflexivity). do 2 rewrite first_skip by (apply symbol_none; reflexivity). rewrite first_skip by (apply alias_none; reflexivity).
      rewrite first_skip by (apply symbol_none; reflexivity). apply first_take.
      apply read_symbol_node; try assumption; try exact Hs'; try (split; [reflexivity|discriminate]); try discriminate. right. split; reflexivity.
    - destruct Hmay as (-> & -> & -> & ->). do 3 rewrite first_skip by (apply plain_none; reflexivity). do 2 rewrite first_skip by (apply symbol_none; reflexivity). rewrite first_skip by (apply alias_none; reflexivity).
      do 2 rewrite first_skip by (apply symbol_none; reflexivity). apply first_take.
      apply read_symbol_node; try assumption; try exact Hs'; try (split; [reflexivity|discriminate]); try discriminate. right. split; reflexivity.
    - destruct Hmay as (-> & -> & -> & ->). do 3 rewrite first_skip by (apply plain_none; reflexivity). do 2 rewrite first_skip by (apply symbol_none; reflexivity). rewrite first_skip by (apply alias_none; reflexivity).
      do 3 rewrite first_skip by (apply symbol_none; reflexivity). do 2 rewrite first_skip by (apply plain_none; reflexivity). apply first_take.
      cbn [map] in Hs'. cbn [print_ports sig_docs opt_doc app map] in Hs'. rewrite app_nil_r in Hs'. apply read_import_node; assumption.
  Qed.

  (** No node starts like metadata or a signature. *)
  Lemma node_open x s r : ok_node show read x -> renders (print_node show x) s -> exists y, s ++ r = 40 :: y /\ open_word "meta" (40 :: y) = None /\ open_word "signature" (40 :: y) = None.
  Proof.
    destruct x as [o ins outs rs ms g]. intros (Ho & _ & _) Hs.
    assert (Hop : exists o1 os, print_operation pt o = o1 :: os) by (destruct o; cbn; eauto). destruct Hop as (o1 & os & Eop).
    destruct (node_text o o1 os ins outs rs ms g s Eop Hs) as (s1 & s' & -> & Hs1 & Hs'). cbn [app]. rewrite <- !app_assoc. cbn [app]. eexists. split; [reflexivity|].
    destruct o as [| | | |sy|sy|t|sy t|sy|  |  |sy|sy|nm]; cbn [print_operation] in Eop; injection Eop as <- <-; try (apply renders_chars in Hs1; subst s1; rewrite !open_text by (split; [reflexivity|discriminate]); split; reflexivity).
    destruct Ho as [Ht Hno]. assert (Hd : delim (s' ++ 41 :: r)) by (eapply delim_lead; [exact Hs'|cbn; tauto]).
    rewrite !open_text by (assert (Hst' := proj1 (proj2 (read_term show read t Ht))); destruct (starty_text _ _ Hst' Hs1) as (c & q & -> & Hc); apply Hc).
    split; (eapply term_word; [reflexivity|eexists _, _; split; [reflexivity|unfold letter; cbn; lia]|exact Ht| |exact Hs1|exact Hd]); intros nm E; specialize (Hno nm E); rewrite Forall_forall in Hno; apply Hno; cbn; tauto.
  Qed.
  Lemma nodes_quiet ns s r : all (ok_node show read) ns -> renders (lead (map (print_node show) ns)) s -> quiet r -> quiet (s ++ r).
  Proof.
    intros Hok Hs Hr. destruct ns as [|x ns]; [apply lead_nil in Hs; subst s; exact Hr|]. cbn [map] in Hs. destruct Hok as [Hx _]. destruct (lead_text _ _ _ Hs) as (w & sx & s' & -> & Hw & Hsx & _).
    rewrite <- !app_assoc. unfold quiet. rewrite skip_blank by exact Hw. destruct (node_open x sx (s' ++ r) Hx Hsx) as (y & -> & H1 & H2). rewrite skip_solid by apply startc_paren.
    split; [apply port_list_first; discriminate|]. split; assumption.
  Qed.
  Lemma nodes_read n ns : Forall reads_node ns -> all (ok_node show read) ns ->
    Forall2 (fun d x => parses n any (p_node read n) d x /\ starty d) (map (print_node show) ns) (map norm_node ns).
  Proof.
    induction 1 as [|x ns Hx _ IH]; intros H; [constructor|]. destruct H as [H1 H2]. constructor; [split; [apply Hx; exact H1|]|apply IH; exact H2].
    destruct x. rewrite print_node_docs. apply starty_parens.
  Qed.
  Lemma node_first n c s : c <> 40 -> p_node read n (c :: s) = None.
  Proof.
    intros H. unfold p_node, node_parsers. do 3 rewrite first_skip by (apply plain_none; apply open_first; exact H). do 2 rewrite first_skip by (apply symbol_none; apply open_first; exact H).
    rewrite first_skip by (apply alias_none; apply open_first; exact H). do 3 rewrite first_skip by (apply symbol_none; apply open_first; exact H). do 2 rewrite first_skip by (apply plain_none; apply open_first; exact H).
    rewrite first_skip by (apply import_none; apply open_first; exact H). cbn [first]. unfold p_custom_node. rewrite word_first by (cbn; congruence). reflexivity.
  Qed.
  Lemma read_region k src tgt ns ms g : Forall reads_node ns -> reads_region (Region k src tgt ns ms g).
  Proof.
    intros Hns (Hi & Ho & Hok & Hm & Hg) n s r Hs _ Hn. destruct (region_text _ _ _ _ _ _ _ Hs) as (s' & -> & Hs'). cbn [app]. rewrite <- !app_assoc. cbn [app].
    destruct n as [|n]; [lens|]. cbn [p_region]. change (word "(" (40 :: kind_text k ++ s' ++ 41 :: r)) with (Some (kind_text k ++ s' ++ 41 :: r)). cbv iota.
    replace (p_kind (skip (kind_text k ++ s' ++ 41 :: r))) with (Some (k, s' ++ 41 :: r)) by (destruct k; reflexivity).
    rewrite lead_app in Hs'. destruct (renders_app _ _ _ Hs') as (sh & sn & -> & Hsh & Hsn). rewrite <- app_assoc in *.
    assert (Hlen : (length (sh ++ sn ++ 41%N :: r) < n)%nat) by (destruct k; cbn [kind_text] in Hn; lens).
    assert (Hend : quiet (41 :: r)) by (unfold quiet; rewrite skip_solid by apply close_solid; split; [apply port_list_first; discriminate|split; apply open_first; discriminate]).
    destruct (read_head n src tgt g ms sh (sn ++ 41 :: r) Hi Ho Hg Hm Hsh) as (r1 & E1 & E1'); [exact (nodes_quiet ns sn _ Hok Hsn Hend)|exact Hlen|].
    rewrite E1, E1'. change (fun s => first (node_parsers read n (regs n)) s) with (p_node read n).
    destruct (many_ok (p_node read n) n any _ _ roomy_any (nodes_read n ns Hns Hok)) with (s := sn) (rest := 41 :: r) as (r2 & E2 & E2').
    - exact Hsn.
    - exact I.
    - rewrite skip_solid by apply close_solid. apply node_first. discriminate.
    - lens.
    - rewrite E2. unfold close. rewrite E2'. rewrite skip_solid by apply close_solid. reflexivity.
  Qed.

  Fixpoint region_reads (x : region) : reads_region x :=
    match x with
    | Region k src tgt ns ms g =>
      read_region k src tgt ns ms g ((fix go (l : list node) : Forall reads_node l := match l with [] => Forall_nil _ | y :: l => Forall_cons y (node_reads y) (go l) end) ns)
    end
  with node_reads (x : node) : reads_node x :=
    match x with
    | Node o ins outs rs ms g =>
      read_node o ins outs rs ms g ((fix go (l : list region) : Forall reads_region l := match l with [] => Forall_nil _ | y :: l => Forall_cons y (region_reads y) (go l) end) rs)
    end.

  (** ** Packages *)
  Definition module_doc (m : module) : doc := lines (parens [kw "mod"] :: module_docs show m).
  Lemma lead_modules (p : @package F) : lead (flat_map (fun m => parens [kw "mod"] :: module_docs show m) p) = lead (map module_doc p).
  Proof.
    induction p as [|m p IH]; [reflexivity|]. cbn [flat_map map]. change (module_doc m :: map module_doc p) with ([module_doc m] ++ map module_doc p). rewrite !lead_app, IH. f_equal.
    unfold module_doc. rewrite lines_lead. cbn [lead flat_map]. rewrite app_nil_r. reflexivity.
  Qed.
  Definition mod_text : str := text "(mod)".
  (** The end, or the next module. *)
  Definition next_module (s : str) : Prop := skip s = [] \/ exists y, skip s = mod_text ++ y.
  Lemma module_text m s : renders (module_doc m) s -> exists s', s = mod_text ++ s' /\ renders (lead (module_docs show m)) s'.
  Proof. unfold module_doc. change (parens [kw "mod"]) with (chars mod_text). intros H. exact (words_text _ _ _ H). Qed.
  Lemma next_quiet s : next_module s -> quiet s /\ forall n, p_node read n (skip s) = None.
  Proof.
    unfold quiet. intros [-> |(y & ->)].
    - split; [repeat split|]. intros n. unfold p_node, node_parsers. cbn [first]. reflexivity.
    - split; [repeat split|]. intros n. change (mod_text ++ y) with (40 :: text "mod" ++ 41 :: y). unfold p_node, node_parsers.
      do 3 rewrite first_skip by (apply plain_none; reflexivity). do 2 rewrite first_skip by (apply symbol_none; reflexivity).
      rewrite first_skip by (apply alias_none; reflexivity). do 3 rewrite first_skip by (apply symbol_none; reflexivity). do 2 rewrite first_skip by (apply plain_none; reflexivity).
      rewrite first_skip by (apply import_none; reflexivity). cbn [first]. unfold p_custom_node. change (word "(" (40 :: text "mod" ++ 41 :: y)) with (Some (text "mod" ++ 41 :: y)). cbv iota.
      replace (p_term read n (skip (text "mod" ++ 41 :: y))) with (@None (res term * str)); [reflexivity|]. destruct n; [reflexivity|]. reflexivity.
  Qed.
  Lemma read_module n m s r : ok_module show read m -> renders (module_doc m) s -> next_module r -> (length (s ++ r) < n)%nat ->
    exists r', p_module read n (s ++ r) = Some (Good (norm_region m), r') /\ skip r' = skip r.
  Proof.
    intros [Hok (ns & ms & ->)] Hs Hr Hn. destruct (module_text _ _ Hs) as (s' & -> & Hs'). destruct Hok as (_ & _ & Hns & Hm & _). change (module_docs show (Region ModuleRegion [] [] ns ms None)) with (meta_docs ms ++ map (print_node show) ns) in Hs'.
    rewrite lead_app in Hs'. destruct (renders_app _ _ _ Hs') as (sm & sn & -> & Hsm & Hsn). rewrite <- !app_assoc. destruct (next_quiet r Hr) as [Hq Hnode].
    unfold p_module. change (close (match open_word "mod" (mod_text ++ sm ++ sn ++ r) with Some s => Some (Good tt, s) | None => None end)) with (Some (Good tt, sm ++ sn ++ r)). cbv iota.
    assert (Hlen : (length (sm ++ sn ++ r) < n)%nat) by lens.
    destruct (read_metas n ms sm (sn ++ r) Hm Hsm) as (r1 & E1 & E1'); [exact (proj2 (proj2 (nodes_quiet ns sn r Hns Hsn Hq)))|exact Hlen|]. rewrite E1, E1'.
    destruct (many_ok (p_node read n) n any _ _ roomy_any (nodes_read n ns (proj2 (Forall_forall _ _) (fun x _ => node_reads x)) Hns)) with (s := sn) (rest := r) as (r2 & E2 & E2').
    - exact Hsn.
    - exact I.
    - apply Hnode.
    - lens.
    - rewrite E2. exists r2. split; [reflexivity|exact E2'].
  Qed.
  Lemma skip_length s : (length (skip s) <= length s)%nat.
  Proof.
    assert (G : forall s c, (length (skip_in c s) <= match c with Some st => max (length st) (length s) | None => length s end)%nat).
    { clear s. induction s as [|x s IH]; intros [st|]; cbn [skip_in]; [cbn; lia|cbn; lia| |].
      - destruct (x =? 10); [specialize (IH None)|specialize (IH (Some st))]; cbn [length] in *; lia.
      - destruct (is_ws x); [specialize (IH None); cbn [length]; lia|]. destruct (x =? 59); [eapply Nat.le_trans; [apply IH|]; cbn [length]; lia|apply Nat.le_refl]. }
    apply (G s None).
  Qed.
  Lemma modules_length (p : @package F) : forall s, renders (lead (map module_doc p)) s -> (length p <= length (skip s))%nat.
  Proof.
    induction p as [|m p IH]; intros s Hs; [cbn; lia|]. cbn [map] in Hs. destruct (lead_text _ _ _ Hs) as (w & sm & s' & -> & Hw & Hsm & Hs'). destruct (module_text _ _ Hsm) as (q & -> & _).
    rewrite skip_blank by exact Hw. change ((mod_text ++ q) ++ s') with (40 :: (text "mod)" ++ q) ++ s'). rewrite skip_solid by apply startc_paren. specialize (IH s' Hs'). assert (H := skip_length s'). lens.
  Qed.
  Lemma next_modules (p : @package F) s : renders (lead (map module_doc p)) s -> next_module s.
  Proof.
    destruct p as [|m p]; intros Hs; [apply lead_nil in Hs; subst s; left; reflexivity|]. cbn [map] in Hs. destruct (lead_text _ _ _ Hs) as (w & sm & s' & -> & Hw & Hsm & Hs'). destruct (module_text _ _ Hsm) as (q & -> & _).
    right. exists (q ++ s'). rewrite skip_blank by exact Hw. reflexivity.
  Qed.
  Lemma module_none n : p_module read n [] = None. Proof. reflexivity. Qed.
  Lemma more_modules n (p : @package F) : Forall (ok_module show read) p -> forall s r fuel, renders (lead (map module_doc p)) s -> skip r = skip s -> (length s < n)%nat -> (length p <= fuel)%nat ->
    exists r', more fuel (p_module read n) r = (Good (map norm_region p), r') /\ skip r' = [].
  Proof.
    induction 1 as [|m p Hm _ IH]; intros s r fuel Hs Er Hn Hf.
    - apply lead_nil in Hs. subst s. exists r. split; [|exact Er]. destruct fuel; [reflexivity|]. cbn [more]. rewrite Er. reflexivity.
    - destruct fuel as [|fuel]; [cbn in Hf; lia|]. cbn [map] in Hs. destruct (lead_text _ _ _ Hs) as (w & sm & s' & -> & Hw & Hsm & Hs').
      cbn [more]. rewrite Er, skip_blank by exact Hw. replace (skip (sm ++ s')) with (sm ++ s') by (destruct (module_text _ _ Hsm) as (q & -> & _); reflexivity).
      destruct (read_module n m sm s' Hm Hsm (next_modules p s' Hs')) as (r1 & E1 & E1'); [lens|]. rewrite E1.
      destruct (IH s' r1 fuel Hs' E1') as (r2 & E2 & E2'); [lens|cbn in Hf; lia|]. rewrite E2. exists r2. split; [reflexivity|exact E2'].
  Qed.
  Lemma read_package (p : @package F) s : Forall (ok_module show read) p -> renders (print_package show p) s -> from_str (p_package read) s = Good (map norm_region p).
  Proof.
    intros Hp Hs. unfold print_package in Hs. change (parens [kw "hugr"; kw "0"]) with (kw "(hugr" ++ None :: kw "0)") in Hs. rewrite lines_lead, lead_modules in Hs.
    destruct (renders_app _ _ _ Hs) as (s0 & s1 & -> & Hs0 & Hs1). destruct (renders_app _ _ _ Hs0) as (a & b & -> & Ha & Hb). apply renders_chars in Ha. subst a.
    destruct (renders_line _ _ Hb) as (w & b' & -> & Hw & Hb'). apply renders_chars in Hb'. subst b'. rewrite <- !app_assoc.
    unfold from_str. set (x := text "(hugr" ++ w ++ text "0)" ++ s1). assert (Hn : (length s1 < S (length x))%nat) by (unfold x; rewrite !app_length; lia). revert Hn. generalize (S (length x)). intros n Hn. unfold x. clear x.
    unfold p_package. change (open_word "hugr" (text "(hugr" ++ w ++ text "0)" ++ s1)) with (Some (w ++ text "0)" ++ s1)). cbv iota. rewrite skip_blank by exact Hw.
    change (word "0" (skip (text "0)" ++ s1))) with (Some (text ")" ++ s1)). cbv iota. change (word ")" (skip (text ")" ++ s1))) with (Some s1). cbv iota.
    destruct p as [|m p].
    - apply lead_nil in Hs1. subst s1. reflexivity.
    - inversion Hp as [|? ? Hm Hp']; subst. cbn [map] in Hs1. destruct (lead_text _ _ _ Hs1) as (w1 & sm & s' & -> & Hw1 & Hsm & Hs'). rewrite skip_blank by exact Hw1.
      replace (skip (sm ++ s')) with (sm ++ s') by (destruct (module_text _ _ Hsm) as (q & -> & _); reflexivity). unfold many.
      destruct (read_module n m sm s' Hm Hsm (next_modules p s' Hs')) as (r1 & E1 & E1'); [lens|]. rewrite E1.
      destruct (more_modules n p Hp' s' r1 (length r1) Hs' E1') as (r2 & E2 & E2'); [lens| |].
      + assert (H1 := modules_length p s' Hs'). rewrite <- E1' in H1. assert (H2 := skip_length r1). lia.
      + rewrite E2, E2'. reflexivity.
  Qed.
  (** Texts of single terms, nodes and regions. *)
  Lemma term_round t s : ok_term show read t -> renders (pt t) s -> from_str (p_term read) s = Good (norm t).
  Proof.
    intros Ht Hs. unfold from_str. destruct (read_term show read t Ht) as (Hp & _). specialize (Hp (S (length s)) s [] Hs I). rewrite app_nil_r in Hp. rewrite Hp by lia. reflexivity.
  Qed.
  Lemma region_round x s : ok_region show read x -> renders (print_region show x) s -> from_str (p_region read) s = Good (norm_region x).
  Proof.
    intros Ht Hs. unfold from_str. assert (Hp := region_reads x Ht (S (length s)) s [] Hs I). rewrite app_nil_r in Hp. rewrite Hp by lia. reflexivity.
  Qed.
  Lemma node_round x s : ok_node show read x -> renders (print_node show x) s -> from_str (p_node read) s = Good (norm_node x).
  Proof.
    intros Ht Hs. unfold from_str. assert (Hp := node_reads x Ht (S (length s)) s [] Hs I). rewrite app_nil_r in Hp. rewrite Hp by lia. reflexivity.
  Qed.
End Node.
