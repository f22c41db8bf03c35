(** Lemmas about the text form: sequences and terms. *)
From Coq Require Import String Ascii List Bool NArith Arith Lia.
From Verif Require Import TextModel TextSpec TextProofs.
Import ListNotations.
Open Scope N_scope.
Open Scope list_scope.

(** Lengths. *)
Ltac lens := repeat (repeat rewrite app_length in *; progress cbn [length app] in *); repeat rewrite app_length in *; lia.

(** * White space *)
Lemma skip_in_fix s : forall c, match c with Some st => exists p, st = 59 :: p ++ s /\ Forall (fun x => x <> 10) p | None => True end -> skip (skip_in c s) = skip_in c s.
Proof.
  induction s as [|x s IH]; intros c Hc.
  - destruct c as [st|]; [|reflexivity]. cbn [skip_in]. destruct Hc as (p & -> & Hp). rewrite app_nil_r. unfold skip. cbn [skip_in is_ws N.eqb Pos.eqb orb].
    assert (G : forall st, skip_in (Some st) p = st).
    { clear - Hp. intros st. induction p as [|y p IHp]; [reflexivity|]. inversion Hp as [|? ? Hy Hp']; subst. cbn [skip_in]. apply N.eqb_neq in Hy. rewrite Hy. apply IHp. exact Hp'. }
    apply G.
  - destruct c as [st|].
    + destruct Hc as (p & -> & Hp). cbn [skip_in]. destruct (x =? 10) eqn:E; [apply IH; exact I|]. apply IH. exists (p ++ [x]). rewrite <- app_assoc. split; [reflexivity|].
      apply Forall_app. split; [exact Hp|]. constructor; [apply N.eqb_neq; exact E|constructor].
    + cbn [skip_in]. destruct (is_ws x) eqn:E; [apply IH; exact I|]. destruct (x =? 59) eqn:E'.
      * apply IH. exists []. apply N.eqb_eq in E' as ->. split; [reflexivity|constructor].
      * apply skip_solid. split; [exact E|apply N.eqb_neq; exact E'].
Qed.
Lemma skip_skip s : skip (skip s) = skip s.
Proof. apply skip_in_fix. exact I. Qed.

(** * Documents that start with the first character of a term, node or region *)
Definition startc (c : N) : Prop := solid c /\ c <> 46 /\ c <> 41 /\ c <> 93.
Definition starty (d : doc) : Prop := exists c d', d = Some c :: d' /\ startc c.
Lemma starty_text d s : starty d -> renders d s -> exists c s', s = c :: s' /\ startc c.
Proof. intros (c & d' & -> & Hc) H. inversion H; subst. eauto. Qed.
Lemma starty_app d e : starty d -> starty (d ++ e).
Proof. intros (c & d' & -> & Hc). exists c, (d' ++ e). split; [reflexivity|exact Hc]. Qed.
Lemma startc_paren : startc 40. Proof. split; [split; [reflexivity|discriminate]|]. repeat split; discriminate. Qed.
Lemma startc_bracket : startc 91. Proof. split; [split; [reflexivity|discriminate]|]. repeat split; discriminate. Qed.
Lemma startc_name c : letter c \/ c = 95 \/ c = 45 -> startc c.
Proof. intros H. split; [apply name_char_solid; unfold name_char; tauto|]. unfold letter in H. lia. Qed.
Lemma starty_parens ds : starty (parens ds).
Proof. exists 40, (lines ds ++ kw ")"). split; [reflexivity|apply startc_paren]. Qed.

(** Nothing that is part of a term or its splice marker comes next. *)
Definition after (s : str) : Prop := delim s /\ match skip s with 46 :: _ => False | _ => True end.
Definition roomy (K : str -> Prop) : Prop := forall w c s, blank w -> startc c -> K (w ++ c :: s).
Lemma roomy_delim : roomy delim. Proof. intros w c s Hw _. apply delim_blank. exact Hw. Qed.
Lemma not_dot c s : c <> 46 -> match c :: s with 46 :: _ => False | _ => True end.
Proof. intros H. destruct c as [|p]; [exact I|]. do 6 (try (destruct p as [p|p|]; try exact I)). congruence. Qed.
Lemma roomy_after : roomy after.
Proof.
  intros w c s Hw (H1 & H2 & _). split; [apply delim_blank; exact Hw|]. rewrite skip_blank by exact Hw. rewrite skip_solid by exact H1. apply (not_dot c s H2).
Qed.

(** [q] reads every text of the document, given what may follow. *)
Definition parses {A} (n : nat) (K : str -> Prop) (q : parser A) (d : doc) (x : A) : Prop :=
  forall s r, renders d s -> K r -> (length (s ++ r) < n)%nat -> q (s ++ r) = Some (Good x, r).
Definition lead (ds : list doc) : doc := flat_map (fun d => None :: d) ds.
Lemma lines_lead d ds : lines (d :: ds) = d ++ lead ds.
Proof. revert d. induction ds as [|e ds IH]; intros d; [cbn; rewrite app_nil_r; reflexivity|]. change (lines (d :: e :: ds)) with (d ++ None :: lines (e :: ds)). rewrite IH. reflexivity. Qed.
Lemma lead_text d ds s : renders (lead (d :: ds)) s -> exists w sd s', s = w ++ sd ++ s' /\ blank w /\ renders d sd /\ renders (lead ds) s'.
Proof.
  intros H. change (lead (d :: ds)) with (None :: d ++ lead ds) in H. destruct (renders_line _ _ H) as (w & s0 & -> & Hw & Hs0). destruct (renders_app _ _ _ Hs0) as (sd & s' & -> & Hd & Hs').
  exists w, sd, s'. tauto.
Qed.
Lemma lead_app a b : lead (a ++ b) = lead a ++ lead b.
Proof. apply flat_map_app. Qed.

(** The documents leave room for what stands before them. *)
Definition follows (K : str -> Prop) (ds : list doc) : Prop := forall d, In d ds -> forall w s r, blank w -> renders d s -> K (w ++ s ++ r).
Lemma roomy_follows {A} (R : doc -> A -> Prop) K ds xs : roomy K -> Forall2 (fun d x => R d x /\ starty d) ds xs -> follows K ds.
Proof.
  intros HK H. induction H as [|d x ds xs [_ Hst] _ IH]; intros e He; [destruct He|]. destruct He as [<-|He]; [|apply IH; exact He].
  intros w s r Hw Hs. destruct (starty_text _ _ Hst Hs) as (c & s' & -> & Hc). apply HK; assumption.
Qed.
Lemma more_ok {A} (q : parser A) n K ds xs : Forall2 (fun d x => parses n K q d x /\ starty d) ds xs -> follows K ds ->
  forall s rest fuel, renders (lead ds) s -> K rest -> q (skip rest) = None -> (length (s ++ rest) < n)%nat -> (length s <= fuel)%nat -> more fuel q (s ++ rest) = (Good xs, rest).
Proof.
  intros H. induction H as [|d x ds xs [Hd Hst] Hrec IH]; intros HK s rest fuel Hs Hrest Hq Hn Hf.
  - inversion Hs; subst. cbn [app]. destruct fuel; [reflexivity|]. cbn [more]. rewrite Hq. reflexivity.
  - assert (HK' : follows K ds) by (intros e He; apply HK; right; exact He).
    change (lead (d :: ds)) with (None :: d ++ lead ds) in Hs. destruct (renders_line _ _ Hs) as (w & s0 & -> & Hw & Hs0). destruct (renders_app _ _ _ Hs0) as (sd & s' & -> & Hsd & Hs').
    destruct (starty_text _ _ Hst Hsd) as (c & sd' & Esd & Hc). destruct Hw as [Hne Hw']. assert (0 < length w)%nat by (destruct w; [congruence|cbn; lia]).
    destruct fuel as [|fuel]; [lens|]. cbn [more]. rewrite <- !app_assoc, skip_blank by (split; assumption).
    replace (skip (sd ++ s' ++ rest)) with (sd ++ s' ++ rest) by (rewrite Esd; symmetry; apply skip_solid; apply Hc).
    rewrite (Hd sd (s' ++ rest)); [|exact Hsd| |lens].
    + rewrite IH; [reflexivity|exact HK'|exact Hs'|exact Hrest|exact Hq|lens|lens].
    + destruct ds as [|e ds]; [inversion Hs'; subst; exact Hrest|].
      change (lead (e :: ds)) with (None :: e ++ lead ds) in Hs'. destruct (renders_line _ _ Hs') as (w2 & s2 & -> & Hw2 & Hs2).
      destruct (renders_app _ _ _ Hs2) as (se & s3 & -> & Hse & _). rewrite <- !app_assoc. apply (HK' e (or_introl eq_refl)); assumption.
Qed.
(** Without a line before the first document. *)
Lemma many_first {A} (q : parser A) n K d ds xs : Forall2 (fun d x => parses n K q d x /\ starty d) (d :: ds) xs -> follows K (d :: ds) ->
  forall s rest, renders (d ++ lead ds) s -> K rest -> q (skip rest) = None -> (length (s ++ rest) < n)%nat ->
  many q (skip (s ++ rest)) = (Good xs, rest).
Proof.
  intros H HK s rest Hs0 Hrest Hq Hn. inversion H as [|? x ? xs' [Hd Hst] Hrec]; subst. assert (HK' : follows K ds) by (intros e He; apply HK; right; exact He).
  destruct (renders_app _ _ _ Hs0) as (sd & s' & -> & Hsd & Hs'). destruct (starty_text _ _ Hst Hsd) as (c & sd' & Esd & Hc). rewrite <- !app_assoc.
  replace (skip (sd ++ s' ++ rest)) with (sd ++ s' ++ rest) by (rewrite Esd; symmetry; apply skip_solid; apply Hc). unfold many.
  rewrite (Hd sd (s' ++ rest)); [|exact Hsd| |lens].
  - rewrite (more_ok q n K ds xs' Hrec HK' s' rest); [reflexivity|exact Hs'|exact Hrest|exact Hq|lens|lens].
  - destruct ds as [|e ds]; [inversion Hs'; subst; exact Hrest|].
    change (lead (e :: ds)) with (None :: e ++ lead ds) in Hs'. destruct (renders_line _ _ Hs') as (w2 & s2 & -> & Hw2 & Hs2).
    destruct (renders_app _ _ _ Hs2) as (se & s3 & -> & Hse & _). rewrite <- !app_assoc. apply (HK' e (or_introl eq_refl)); assumption.
Qed.
Lemma many_gen {A} (q : parser A) n K ds xs : Forall2 (fun d x => parses n K q d x /\ starty d) ds xs -> follows K ds ->
  forall s rest, renders (lead ds) s -> K rest -> q (skip rest) = None -> (length (s ++ rest) < n)%nat ->
  exists rest', many q (skip (s ++ rest)) = (Good xs, rest') /\ skip rest' = skip rest.
Proof.
  intros H HK s rest Hs Hrest Hq Hn. destruct ds as [|d ds].
  - inversion H; subst. inversion Hs; subst. exists (skip rest). cbn [app]. unfold many. rewrite Hq. split; [reflexivity|apply skip_skip].
  - exists rest. split; [|reflexivity]. change (lead (d :: ds)) with (None :: d ++ lead ds) in Hs. destruct (renders_line _ _ Hs) as (w & s0 & -> & Hw & Hs0).
    rewrite <- !app_assoc, skip_blank by exact Hw. apply (many_first q n K d ds xs H HK); try assumption. lens.
Qed.
Lemma many_ok {A} (q : parser A) n K ds xs : roomy K -> Forall2 (fun d x => parses n K q d x /\ starty d) ds xs ->
  forall s rest, renders (lead ds) s -> K rest -> q (skip rest) = None -> (length (s ++ rest) < n)%nat ->
  exists rest', many q (skip (s ++ rest)) = (Good xs, rest') /\ skip rest' = skip rest.
Proof. intros HK H. apply (many_gen q n K ds xs H). exact (roomy_follows _ K ds xs HK H). Qed.
Lemma many_lines {A} (q : parser A) n K ds xs : roomy K -> Forall2 (fun d x => parses n K q d x /\ starty d) ds xs ->
  forall s rest, renders (lines ds) s -> K rest -> q (skip rest) = None -> (length (s ++ rest) < n)%nat ->
  exists rest', many q (skip (s ++ rest)) = (Good xs, rest') /\ skip rest' = skip rest.
Proof.
  intros HK H s rest Hs Hrest Hq Hn. destruct ds as [|d ds].
  - inversion H; subst. inversion Hs; subst. exact (many_ok q n K [] [] HK H [] rest r_nil Hrest Hq Hn).
  - rewrite lines_lead in Hs. exists rest. split; [|reflexivity]. apply (many_first q n K d ds xs H (roomy_follows _ K _ xs HK H)); assumption.
Qed.

(** * Failure by the first character *)
Lemma lit_first a k c s : a <> c -> lit (a :: k) (c :: s) = None.
Proof. intros H. cbn. apply N.eqb_neq in H. rewrite H. reflexivity. Qed.
Lemma wildcard_first c s : c <> 95 -> p_wildcard (c :: s) = None.
Proof. intros H. unfold p_wildcard. rewrite lit_first by congruence. reflexivity. Qed.
Lemma var_first c s : c <> 63 -> p_var (c :: s) = None.
Proof. intros H. unfold p_var. change (word "?" (c :: s)) with (lit [63] (c :: s)). rewrite lit_first by congruence. reflexivity. Qed.
Lemma word_first k c s : match text k with a :: _ => a <> c | [] => False end -> word k (c :: s) = None.
Proof. unfold word. destruct (text k); [tauto|]. apply lit_first. Qed.
Lemma open_first k c s : c <> 40 -> open_word k (c :: s) = None.
Proof. intros H. unfold open_word. rewrite word_first by (cbn; congruence). reflexivity. Qed.
Lemma sign_first c s : c <> 43 -> c <> 45 -> p_sign (c :: s) = c :: s.
Proof. intros H1 H2. cbn. apply N.eqb_neq in H1, H2. rewrite H1, H2. reflexivity. Qed.
Lemma digits_none c s : is_digit c = false -> p_digits (c :: s) = None.
Proof. intros H. unfold p_digits. cbn [span]. rewrite H. reflexivity. Qed.
Lemma float_first c s : c <> 43 -> c <> 45 -> is_digit c = false -> p_float_text (c :: s) = None.
Proof. intros H1 H2 H3. unfold p_float_text. rewrite sign_first, digits_none by assumption. reflexivity. Qed.
Lemma nat_first c s : is_digit c = false -> p_nat (c :: s) = None.
Proof. intros H. unfold p_nat. cbn [span]. rewrite H. reflexivity. Qed.
Lemma symbol_first_none c s : ident_initial c = false -> p_symbol_name (c :: s) = None.
Proof. intros H. unfold p_symbol_name, p_ident. rewrite H. destruct (p_reserved reserved (c :: s)) as [[|x y]|]; try reflexivity. destruct (negb _); reflexivity. Qed.

(** * Names and brackets *)
(** ** Names *)
Lemma name_chars n : symbol_name n -> Forall (fun c => name_char c \/ c = 46) n.
Proof. intros [(segs & _ & Hs & ->) _]. apply dotted_chars. exact Hs. Qed.
Lemma name_start n : symbol_name n -> exists c r, n = c :: r /\ startc c /\ (letter c \/ c = 95 \/ c = 45).
Proof. intros H. destruct (symbol_first n H) as (c & r & -> & Hc & _). exists c, r. split; [reflexivity|]. split; [apply startc_name; exact Hc|exact Hc]. Qed.
Lemma skip_name n s : symbol_name n -> skip (n ++ s) = n ++ s.
Proof. intros H. destruct (name_start n H) as (c & r & -> & Hc & _). apply skip_solid. apply Hc. Qed.
Lemma dot_solid : solid 46. Proof. split; [reflexivity|discriminate]. Qed.
Definition plain (k : string) : bool := forallb (fun c => negb ((c =? 32) || (c =? 10) || (c =? 41) || (c =? 93))) (text k).
Lemma plain_word k : plain k = true -> Forall (fun c => c <> 32 /\ c <> 10 /\ c <> 41 /\ c <> 93) (text k).
Proof.
  unfold plain. rewrite forallb_forall. intros G. apply Forall_forall. intros c Hc. specialize (G c Hc). rewrite negb_true_iff, !orb_false_iff, !N.eqb_neq in G. tauto.
Qed.
Lemma open_text k s : solid (hd 0 s) -> open_word k (40 :: s) = word k s.
Proof. intros H. unfold open_word. change (word "(" (40 :: s)) with (Some s). cbv iota. destruct s as [|c s]; [reflexivity|]. rewrite skip_solid by exact H. reflexivity. Qed.
Lemma open_name k n s : symbol_name n -> open_word k (40 :: n ++ s) = word k (n ++ s).
Proof. intros H. apply open_text. destruct (name_start n H) as (c & r & -> & Hc & _). apply Hc. Qed.
(** A word at the start of a name followed by something. *)
Lemma word_name k n s r : plain k = true -> symbol_name n -> delim s -> word k (n ++ s) = Some r ->
  exists r', n = text k ++ r' /\ r = r' ++ s /\ (r' = [] \/ exists c q, r' = c :: q /\ (name_char c \/ c = 46)).
Proof.
  intros Hk Hn Hs H. destruct (lit_delim _ _ _ _ (plain_word k Hk) Hs H) as (r' & En & ->). exists r'. split; [exact En|]. split; [reflexivity|].
  assert (G := name_chars n Hn). rewrite En in G. apply Forall_app in G as [_ G]. destruct r' as [|c q]; [tauto|]. right. exists c, q. inversion G; subst. tauto.
Qed.
Lemma name_keyword k n : In (text k) keywords -> symbol_name n -> n <> text k.
Proof. intros H [_ Hn] ->. tauto. Qed.
Lemma name_dot_solid c : name_char c \/ c = 46 -> solid c.
Proof. intros [H | ->]; [apply name_char_solid; exact H|apply dot_solid]. Qed.
Lemma name_float n s : symbol_name n -> delim s -> p_float_text (n ++ s) = None.
Proof.
  intros [(segs & Hne & Hsegs & ->) _] Hs. destruct segs as [|a segs]; [congruence|]. inversion Hsegs as [|? ? Ha Hsegs']; subst. destruct Ha as (c & r & -> & Hc & Hr).
  assert (exists q, dotted ((c :: r : str) :: segs) = (c :: r) ++ q /\ (q = [] \/ exists x y, q = 46 :: x :: y /\ is_digit x = false)) as (q & Eq & Hq).
  { destruct segs as [|b segs]; [exists []; split; [cbn; rewrite app_nil_r; reflexivity|tauto]|]. exists (46 :: dotted (b :: segs)). split; [reflexivity|]. right.
    inversion Hsegs' as [|? ? (x & y & -> & Hx & _) _]; subst. destruct (is_digit x) eqn:E. { apply is_digit_iff in E. unfold letter, digit in *. lia. }
    destruct segs as [|e segs]; [exists x, y; split; [reflexivity|exact E]|exists x, (y ++ 46 :: dotted (e :: segs)); split; [reflexivity|exact E]]. }
  rewrite Eq. rewrite <- app_assoc. cbn [app]. clear Eq. destruct (N.eq_dec c 45) as [-> |Hc45].
  - unfold p_float_text. change (p_sign (45 :: r ++ q ++ s)) with (r ++ q ++ s). unfold p_digits at 1.
    assert (G : forall r, Forall name_char r -> exists ds r', span is_digit (r ++ q ++ s) = (ds, r' ++ q ++ s) /\ Forall name_char r').
    { clear - Hq Hs. intros r Hr. induction r as [|x r IH]; cbn [app].
      - exists [], []. split; [|constructor]. cbn [app]. destruct Hq as [-> |(x & y & -> & _)]; [|reflexivity]. cbn [app]. destruct s as [|x s]; [reflexivity|].
        cbn [span]. apply delim_digit in Hs. rewrite Hs. reflexivity.
      - inversion Hr as [|? ? Hx Hr']; subst. cbn [span]. destruct (is_digit x) eqn:E; [|exists [], (x :: r); split; [reflexivity|exact Hr]].
        destruct (IH Hr') as (ds & r' & -> & H). exists (x :: ds), r'. split; [reflexivity|exact H]. }
    destruct (G r Hr) as (ds & r' & -> & Hr'). destruct ds as [|d ds]; [reflexivity|]. destruct r' as [|x r'].
    + cbn [app]. destruct Hq as [-> |(x & y & -> & Hx)].
      * cbn [app]. destruct s as [|x s]; [reflexivity|]. apply delim_dot in Hs. rewrite lit_first by congruence. reflexivity.
      * change (lit [46] ((46 :: x :: y) ++ s)) with (Some (x :: y ++ s)). cbv iota. rewrite digits_none by exact Hx. reflexivity.
    + inversion Hr' as [|? ? Hx _]; subst. cbn [app]. rewrite lit_first; [reflexivity|]. unfold name_char, letter, digit in Hx. lia.
  - apply float_first; [unfold letter in Hc; lia|exact Hc45|]. destruct (is_digit c) eqn:E; [|reflexivity]. apply is_digit_iff in E. unfold letter, digit in *. lia.
Qed.
Lemma name_not_digit c : letter c \/ c = 95 \/ c = 45 -> is_digit c = false.
Proof. intros H. destruct (is_digit c) eqn:E; [|reflexivity]. apply is_digit_iff in E. unfold letter, digit in *. lia. Qed.
Lemma name_bytes n s : symbol_name n -> delim s -> p_bytes (40 :: n ++ s) = None.
Proof.
  intros Hn Hs. unfold p_bytes. rewrite open_name by exact Hn. destruct (word "bytes" (n ++ s)) as [r|] eqn:E; [|reflexivity].
  destruct (word_name "bytes" n s r eq_refl Hn Hs E) as (r' & En & -> & [-> |(c & q & -> & Hc)]).
  - exfalso. rewrite app_nil_r in En. revert En. apply name_keyword; [cbn; tauto|exact Hn].
  - cbn [app]. rewrite skip_solid by (apply name_dot_solid; exact Hc). unfold p_base64. rewrite word_first; [reflexivity|]. cbn. unfold name_char, letter, digit in Hc. lia.
Qed.
(** A name that does not clash with a word: after the word, if it is found at all, comes a dot. *)
Lemma name_clash k n s : plain k = true -> symbol_name n -> delim s -> ~ clash k n -> word k (n ++ s) = None \/ exists q, word k (n ++ s) = Some (46 :: q).
Proof.
  intros Hk Hn Hs Hc. destruct (word k (n ++ s)) as [r|] eqn:E; [|tauto]. right. destruct (word_name k n s r Hk Hn Hs E) as (r' & En & -> & H).
  destruct H as [-> |(c & q & -> & H)]; [exfalso; apply Hc; exists []; tauto|]. destruct (N.eq_dec c 46) as [-> |Hne]; [exists (q ++ s); reflexivity|].
  exfalso. apply Hc. exists (c :: q). split; [exact En|]. right. eauto.
Qed.
Lemma parens_text ds s : renders (parens ds) s -> exists s', s = 40 :: s' ++ [41] /\ renders (lines ds) s'.
Proof.
  unfold parens. intros H. destruct (renders_app _ _ _ H) as (a & b & -> & Ha & Hb). apply renders_chars in Ha. subst a.
  destruct (renders_app _ _ _ Hb) as (s' & e & -> & Hs' & He). apply renders_chars in He. subst e. exists s'. split; [reflexivity|exact Hs'].
Qed.
Lemma brackets_text ds s : renders (brackets ds) s -> exists s', s = 91 :: s' ++ [93] /\ renders (lines ds) s'.
Proof.
  unfold brackets. intros H. destruct (renders_app _ _ _ H) as (a & b & -> & Ha & Hb). apply renders_chars in Ha. subst a.
  destruct (renders_app _ _ _ Hb) as (s' & e & -> & Hs' & He). apply renders_chars in He. subst e. exists s'. split; [reflexivity|exact Hs'].
Qed.
Lemma words_text n ds s : renders (lines (chars n :: ds)) s -> exists s', s = n ++ s' /\ renders (lead ds) s'.
Proof. rewrite lines_lead. intros H. destruct (renders_app _ _ _ H) as (a & b & -> & Ha & Hb). apply renders_chars in Ha. subst a. eauto. Qed.
Lemma lead_delim ds s c r : renders (lead ds) s -> c = 41 \/ c = 93 -> delim (s ++ c :: r).
Proof.
  intros H Hc. destruct ds as [|d ds]; [inversion H; subst; cbn; tauto|]. cbn in H. destruct (renders_line _ _ H) as (w & s' & -> & Hw & _). rewrite <- app_assoc. apply delim_blank. exact Hw.
Qed.
Lemma close_solid : solid 41 /\ solid 93. Proof. repeat split; discriminate. Qed.
Lemma after_close c r : c = 41 \/ c = 93 -> after (c :: r).
Proof. intros H. split; [cbn; tauto|]. destruct H as [-> | ->]; rewrite skip_solid by apply close_solid; exact I. Qed.
Lemma paren_wild s : p_wildcard (40 :: s) = None. Proof. apply wildcard_first. discriminate. Qed.
Lemma all_Forall {A} (P : A -> Prop) l : all P l <-> Forall P l.
Proof. induction l as [|a l IH]; cbn; [split; [constructor|trivial]|]. rewrite IH. split; [intros []; constructor; assumption|intros H; inversion H; tauto]. Qed.
Lemma parses_mono {A} n (K K' : str -> Prop) (q : parser A) d x : (forall r, K' r -> K r) -> parses n K q d x -> parses n K' q d x.
Proof. intros HK H s r Hs Hr. apply H; [exact Hs|apply HK; exact Hr]. Qed.
Lemma read_var_text n s : ident n -> delim s -> p_var (63 :: n ++ s) = Some (Good n, s).
Proof.
  intros Hn Hs. unfold p_var. change (word "?" (63 :: n ++ s)) with (Some (n ++ s)). cbv iota.
  replace (skip (n ++ s)) with (n ++ s); [|destruct Hn as (c & r & -> & Hc & _); symmetry; apply skip_solid; apply name_char_solid; unfold name_char; tauto].
  rewrite p_ident_ok; [|exact Hn|destruct s; [trivial|eapply delim_name_char; exact Hs]]. rewrite consumed_app. reflexivity.
Qed.
Lemma var_text n s : renders (print_var n) s -> s = 63 :: n.
Proof. unfold print_var. intros H. destruct (renders_app _ _ _ H) as (a & b & -> & Ha & Hb). apply renders_chars in Ha, Hb. subst. reflexivity. Qed.
Lemma digit_start c : digit c -> startc c /\ is_digit c = true.
Proof. intros H. split; [|apply is_digit_iff; exact H]. split; [apply name_char_solid; unfold name_char; tauto|]. unfold digit in H. lia. Qed.
Lemma sign_digit_start a : (exists sg b r, a = sg ++ b ++ r /\ sign_text sg /\ digits_text b) -> exists c r, a = c :: r /\ startc c /\ (digit c \/ c = 43 \/ c = 45).
Proof.
  intros (sg & b & r & -> & Hsg & Hb). destruct (digits_first b Hb) as (c & q & -> & Hc). destruct Hsg as [-> |[-> | ->]]; cbn [app]; eexists _, _; (split; [reflexivity|]).
  - split; [apply digit_start; exact Hc|tauto].
  - split; [|tauto]. split; [split; [reflexivity|discriminate]|]. repeat split; discriminate.
  - split; [|tauto]. split; [split; [reflexivity|discriminate]|]. repeat split; discriminate.
Qed.
Lemma number_before c s : digit c \/ c = 43 \/ c = 45 -> p_wildcard (c :: s) = None /\ p_var (c :: s) = None /\ word "[" (c :: s) = None /\ word """" (c :: s) = None.
Proof.
  intros H. unfold digit in H. repeat split; [apply wildcard_first; lia|apply var_first; lia|apply word_first; cbn; lia|apply word_first; cbn; lia].
Qed.

Section Term.
  Context {F : Type}.
  Variable show : F -> str.
  Variable read : str -> F.

  Lemma literal_first c s : c <> 34 -> c <> 43 -> c <> 45 -> c <> 40 -> is_digit c = false -> p_literal read (c :: s) = None.
  Proof.
    intros. unfold p_literal. rewrite word_first by (cbn; congruence). rewrite float_first, nat_first by assumption. unfold p_bytes. rewrite open_first by assumption. reflexivity.
  Qed.
  (** No term starts with a closing parenthesis or bracket, or a dot. *)
  Lemma term_none n c s : c = 41 \/ c = 93 \/ c = 46 -> p_term read n (c :: s) = None.
  Proof.
    intros H. destruct n as [|n]; [reflexivity|]. cbn [p_term].
    rewrite wildcard_first by lia. rewrite var_first by lia. rewrite (word_first "[") by (cbn; lia).
    rewrite literal_first; [|lia..|destruct H as [-> |[-> | ->]]; reflexivity]. rewrite !open_first by lia.
    rewrite symbol_first_none by (destruct H as [-> |[-> | ->]]; reflexivity). rewrite word_first by (cbn; lia). reflexivity.
  Qed.
  Lemma part_none n c s : c = 41 \/ c = 93 \/ c = 46 -> p_part (p_term read n) (c :: s) = None.
  Proof. intros H. unfold p_part. rewrite term_none by exact H. reflexivity. Qed.

  Lemma name_literal n s : symbol_name n -> delim s -> p_literal read (n ++ s) = None.
  Proof.
    intros Hn Hs. unfold p_literal. rewrite name_float by assumption. destruct (name_start n Hn) as (c & r & -> & Hc & Hi). cbn [app].
    rewrite word_first by (cbn; unfold letter in Hi; lia). rewrite nat_first by (apply name_not_digit; exact Hi). unfold p_bytes. rewrite open_first by (unfold letter in Hi; lia). reflexivity.
  Qed.
  Lemma paren_literal s : p_bytes (40 :: s) = None -> p_literal read (40 :: s) = None.
  Proof. intros H. unfold p_literal. rewrite word_first by (cbn; lia). rewrite float_first, nat_first by (try reflexivity; lia). rewrite H. reflexivity. Qed.

  (** ** Terms *)
  Lemma term_induction (P : term -> Prop) :
    P Wildcard -> (forall n, P (Var n)) -> (forall n ts, Forall P ts -> P (Apply n ts)) ->
    (forall ps, Forall (fun p => match p with Item t | Splice t => P t end) ps -> P (List ps)) -> (forall l, P (Lit l)) ->
    (forall ps, Forall (fun p => match p with Item t | Splice t => P t end) ps -> P (Tuple ps)) -> (forall r, P (Func r)) -> forall t : @term F, P t.
  Proof.
    intros HW HV HA HL Hl HT HF. fix IH 1. intros [|n|n ts|ps|l|ps|r].
    - exact HW.
    - apply HV.
    - apply HA. induction ts as [|t ts IHts]; constructor; [apply IH|exact IHts].
    - apply HL. induction ps as [|[t|t] ps IHps]; constructor; [apply IH|exact IHps|apply IH|exact IHps].
    - apply Hl.
    - apply HT. induction ps as [|[t|t] ps IHps]; constructor; [apply IH|exact IHps|apply IH|exact IHps].
    - apply HF.
  Qed.

  Definition reads_term (t : term) : Prop :=
    (forall n, parses n delim (p_term read n) (print_term show t) (norm t)) /\ starty (print_term show t) /\
    (forall n, Forall2 (fun d x => parses n after (p_part (p_term read n)) d x /\ starty d) (snd (print_both show t)) (parts_of (norm t))).

  Lemma parses_item n d x : parses n delim (p_term read n) d x -> parses n after (p_part (p_term read n)) d (Item x).
  Proof.
    intros H s r Hs [Hr Hr'] Hn. unfold p_part. rewrite (H s r Hs Hr Hn). replace (word "..." (skip r)) with (@None str); [reflexivity|].
    symmetry. destruct (word "..." (skip r)) as [q|] eqn:E; [|reflexivity]. apply lit_some in E. rewrite E in Hr'. destruct Hr'.
  Qed.
  Lemma parses_splice n d x : parses n delim (p_term read n) d x -> parses n after (p_part (p_term read n)) (print_splice d) (Splice x).
  Proof.
    intros H s r Hs [Hr Hr'] Hn. unfold print_splice in Hs. rewrite lines_lead in Hs. destruct (renders_app _ _ _ Hs) as (sd & s' & -> & Hsd & Hs').
    cbn [lead flat_map app] in Hs'. rewrite app_nil_r in Hs'. destruct (renders_line _ _ Hs') as (w & s2 & -> & Hw & Hs2). apply renders_chars in Hs2. subst s2.
    unfold p_part. rewrite <- app_assoc. rewrite (H sd ((w ++ text "...") ++ r) Hsd); [|rewrite <- app_assoc; apply delim_blank; exact Hw|rewrite <- app_assoc in Hn; exact Hn].
    rewrite <- app_assoc, skip_blank by exact Hw. change (text "..." ++ r) with (46 :: 46 :: 46 :: r). rewrite skip_solid by apply dot_solid. reflexivity.
  Qed.
  Lemma starty_splice d : starty d -> starty (print_splice d).
  Proof. intros H. unfold print_splice. rewrite lines_lead. apply starty_app. exact H. Qed.




  Lemma read_wildcard : reads_term Wildcard.
  Proof.
    split; [|split].
    - intros n s r Hs Hr Hn. apply renders_chars in Hs. subst s. destruct n; [lens|]. cbn [p_term]. change (text "_" ++ r) with (95 :: r). unfold p_wildcard.
      change (lit [95] (95 :: r)) with (Some r). cbv iota. destruct r as [|c r]; [reflexivity|]. rewrite (delim_name_char _ _ Hr). reflexivity.
    - exists 95, []. split; [reflexivity|]. apply startc_name. tauto.
    - intros n. constructor.
  Qed.
  Lemma read_var n : ident n -> reads_term (Var n).
  Proof.
    intros Hid. split; [|split].
    - intros k s r Hs Hr Hn. apply var_text in Hs. subst s. destruct k; [lens|]. cbn [p_term app]. rewrite wildcard_first by discriminate.
      rewrite read_var_text by assumption. reflexivity.
    - exists 63, (chars n). split; [reflexivity|]. split; [split; [reflexivity|discriminate]|]. repeat split; discriminate.
    - intros k. constructor.
  Qed.

  Lemma read_name n : symbol_name n -> ~ wild n -> reads_term (Apply n []).
  Proof.
    intros Hn Hw. split; [|split].
    - intros k s r Hs Hr Hk. apply renders_chars in Hs. subst s. destruct k; [lens|]. cbn [p_term]. destruct (name_start n Hn) as (c & q & En & Hc & Hi).
      replace (p_wildcard (n ++ r)) with (@None str).
      + rewrite name_literal by assumption. rewrite p_symbol_name_ok by assumption. subst n. cbn [app].
        rewrite var_first by (unfold letter in Hi; lia). rewrite (word_first "[") by (cbn; unfold letter in Hi; lia). rewrite !open_first by (unfold letter in Hi; lia). reflexivity.
      + symmetry. subst n. destruct (N.eq_dec c 95) as [-> |Hne]; [|apply wildcard_first; exact Hne]. unfold p_wildcard. cbn [app]. change (lit [95] (95 :: q ++ r)) with (Some (q ++ r)). cbv iota.
        destruct q as [|d q]; [exfalso; apply Hw; left; reflexivity|]. cbn [app]. assert (G := name_chars _ Hn). inversion G as [|? ? _ G']; subst. inversion G' as [|? ? [Hd|Hd] _]; subst.
        * apply ident_rest_iff in Hd. rewrite Hd. reflexivity.
        * exfalso. apply Hw. right. eauto.
    - destruct (name_start n Hn) as (c & q & -> & Hc & _). exists c, (chars q). split; [reflexivity|exact Hc].
    - intros k. constructor.
  Qed.

  Lemma read_apply n ts : ts <> [] -> symbol_name n -> ~ clash "tuple" n -> ~ clash "fn" n -> Forall reads_term ts -> reads_term (Apply n ts).
  Proof.
    intros Hne Hn Ht Hf Hts. assert (Ep : print_term show (Apply n ts) = parens (chars n :: map (print_term show) ts)) by (destruct ts; [congruence|reflexivity]).
    split; [|split].
    - intros k s r Hs Hr Hk. rewrite Ep in Hs. destruct (parens_text _ _ Hs) as (s1 & -> & Hs1). destruct (words_text _ _ _ Hs1) as (s2 & -> & Hs2).
      destruct k; [lens|]. cbn [p_term norm]. cbn [app]. rewrite <- !app_assoc. cbn [app]. assert (Hd : delim (s2 ++ 41 :: r)) by (apply (lead_delim _ _ _ _ Hs2); tauto).
      rewrite paren_wild, var_first by discriminate. rewrite (word_first "[") by (cbn; lia). rewrite paren_literal by (apply name_bytes; assumption).
      rewrite !open_name by exact Hn.
      replace (match word "tuple" (n ++ s2 ++ 41 :: r) with Some s => close (Some (many (p_part (p_term read k)) (skip s))) | None => None end) with (@None (res (list (part (@term F))) * str)).
      2:{ symmetry. destruct (name_clash "tuple" n (s2 ++ 41 :: r) eq_refl Hn Hd Ht) as [-> |(q & ->)]; [reflexivity|]. rewrite skip_solid by apply dot_solid. unfold many. rewrite part_none by tauto.
          unfold close. rewrite skip_solid by apply dot_solid. rewrite word_first by (cbn; lia). reflexivity. }
      replace (match word "fn" (n ++ s2 ++ 41 :: r) with Some s => close (p_term read k (skip s)) | None => None end) with (@None (res (@term F) * str)).
      2:{ symmetry. destruct (name_clash "fn" n (s2 ++ 41 :: r) eq_refl Hn Hd Hf) as [-> |(q & ->)]; [reflexivity|]. rewrite skip_solid by apply dot_solid. rewrite term_none by tauto. reflexivity. }
      rewrite symbol_first_none by reflexivity. change (word "(" (40 :: n ++ s2 ++ 41 :: r)) with (Some (n ++ s2 ++ 41 :: r)). cbv iota.
      rewrite skip_name by exact Hn. rewrite p_symbol_name_ok by assumption.
      destruct (many_ok (p_term read k) k delim (map (print_term show) ts) (map norm ts) roomy_delim) with (s := s2) (rest := 41 :: r) as (r' & E & Er).
      + clear - Hts. induction Hts as [|t ts (H1 & H2 & _) _ IH]; constructor; [split; [apply H1|exact H2]|exact IH].
      + exact Hs2.
      + cbn. tauto.
      + rewrite skip_solid by apply close_solid. apply term_none. tauto.
      + lens.
      + rewrite E. unfold close. rewrite Er. rewrite skip_solid by apply close_solid. reflexivity.
    - rewrite Ep. apply starty_parens.
    - intros k. destruct ts; constructor.
  Qed.

  Definition list_docs (ps : list (part (@term F))) : list doc := snd (print_both show (List ps)).
  Definition tuple_docs (ps : list (part (@term F))) : list doc := snd (print_both show (Tuple ps)).
  Lemma parts_flat (isl : @term F -> bool) (ps : list (part (@term F))) n : Forall (fun p => match p with Item t | Splice t => reads_term t end) ps ->
    Forall2 (fun d x => parses n after (p_part (p_term read n)) d x /\ starty d)
      (flat_map (fun p => match p with Item t => [print_term show t] | Splice t => if isl t then snd (print_both show t) else [print_splice (print_term show t)] end) ps)
      (flat_map (fun p => match p with Item t => [Item (norm t)] | Splice t => if isl t then parts_of (norm t) else [Splice (norm t)] end) ps).
  Proof.
    induction 1 as [|p ps Hp _ IH]; [constructor|]. cbn [flat_map]. apply Forall2_app; [|exact IH]. destruct p as [t|t]; destruct Hp as (H1 & H2 & H3).
    - constructor; [|constructor]. split; [apply parses_item; apply H1|exact H2].
    - destruct (isl t); [apply H3|]. constructor; [|constructor]. split; [apply parses_splice; apply H1|apply starty_splice; exact H2].
  Qed.
  Lemma list_flat ps n : Forall (fun p => match p with Item t | Splice t => reads_term t end) ps ->
    Forall2 (fun d x => parses n after (p_part (p_term read n)) d x /\ starty d) (list_docs ps) (parts_of (norm (List ps))).
  Proof.
    intros H. assert (G := parts_flat (fun t => match t with List _ => true | _ => false end) ps n H). unfold list_docs. cbn [print_both snd norm parts_of].
    erewrite flat_map_ext; [|]. 2:{ intros p. instantiate (1 := fun p => match p with Item t => [print_term show t] | Splice t => if match t with List _ => true | _ => false end then snd (print_both show t) else [print_splice (print_term show t)] end). destruct p as [t|t]; [reflexivity|destruct t; reflexivity]. }
    erewrite (flat_map_ext (fun p => match p with Item t => [Item (norm t)] | Splice t => match t with List _ => parts_of (norm t) | _ => [Splice (norm t)] end end)); [exact G|].
    intros [t|t]; [reflexivity|destruct t; reflexivity].
  Qed.
  Lemma tuple_flat ps n : Forall (fun p => match p with Item t | Splice t => reads_term t end) ps ->
    Forall2 (fun d x => parses n after (p_part (p_term read n)) d x /\ starty d) (tuple_docs ps) (parts_of (norm (Tuple ps))).
  Proof.
    intros H. assert (G := parts_flat (fun t => match t with Tuple _ => true | _ => false end) ps n H). unfold tuple_docs. cbn [print_both snd norm parts_of].
    erewrite flat_map_ext; [|]. 2:{ intros p. instantiate (1 := fun p => match p with Item t => [print_term show t] | Splice t => if match t with Tuple _ => true | _ => false end then snd (print_both show t) else [print_splice (print_term show t)] end). destruct p as [t|t]; [reflexivity|destruct t; reflexivity]. }
    erewrite (flat_map_ext (fun p => match p with Item t => [Item (norm t)] | Splice t => match t with Tuple _ => parts_of (norm t) | _ => [Splice (norm t)] end end)); [exact G|].
    intros [t|t]; [reflexivity|destruct t; reflexivity].
  Qed.
  Lemma norm_list ps : norm (List ps) = @List F (parts_of (norm (List ps))). Proof. reflexivity. Qed.
  Lemma norm_tuple ps : norm (Tuple ps) = @Tuple F (parts_of (norm (Tuple ps))). Proof. reflexivity. Qed.

  Lemma read_list ps : Forall (fun p => match p with Item t | Splice t => reads_term t end) ps -> reads_term (List ps).
  Proof.
    intros H. split; [|split].
    - intros k s r Hs Hr Hk. change (print_term show (List ps)) with (brackets (list_docs ps)) in Hs. destruct (brackets_text _ _ Hs) as (s1 & -> & Hs1).
      destruct k; [lens|]. rewrite norm_list. cbn [p_term app]. rewrite <- !app_assoc. cbn [app]. rewrite wildcard_first, var_first by discriminate.
      change (word "[" (91 :: s1 ++ 93 :: r)) with (Some (s1 ++ 93 :: r)). cbv iota.
      destruct (many_lines (p_part (p_term read k)) k after (list_docs ps) (parts_of (norm (List ps))) roomy_after) with (s := s1) (rest := 93 :: r) as (r' & E & Er).
      + apply list_flat. exact H.
      + exact Hs1.
      + apply after_close. tauto.
      + rewrite skip_solid by apply close_solid. apply part_none. tauto.
      + lens.
      + rewrite E. cbv iota beta. rewrite Er. rewrite skip_solid by apply close_solid. reflexivity.
    - exists 91, (lines (list_docs ps) ++ kw "]"). split; [reflexivity|apply startc_bracket].
    - intros k. apply list_flat. exact H.
  Qed.
  Lemma read_tuple ps : Forall (fun p => match p with Item t | Splice t => reads_term t end) ps -> reads_term (Tuple ps).
  Proof.
    intros H. split; [|split].
    - intros k s r Hs Hr Hk. change (print_term show (Tuple ps)) with (parens (chars (text "tuple") :: tuple_docs ps)) in Hs. destruct (parens_text _ _ Hs) as (s1 & -> & Hs1).
      destruct (words_text _ _ _ Hs1) as (s2 & -> & Hs2).
      destruct k; [lens|]. rewrite norm_tuple. cbn [p_term app]. rewrite <- !app_assoc. cbn [app]. rewrite wildcard_first, var_first by discriminate. rewrite (word_first "[") by (cbn; lia).
      rewrite paren_literal by reflexivity. rewrite open_text by (split; [reflexivity|discriminate]). unfold word at 1. rewrite lit_app.
      destruct (many_ok (p_part (p_term read k)) k after (tuple_docs ps) (parts_of (norm (Tuple ps))) roomy_after) with (s := s2) (rest := 41 :: r) as (r' & E & Er).
      + apply tuple_flat. exact H.
      + exact Hs2.
      + apply after_close. tauto.
      + rewrite skip_solid by apply close_solid. apply part_none. tauto.
      + lens.
      + rewrite E. unfold close. rewrite Er. rewrite skip_solid by apply close_solid. reflexivity.
    - apply (starty_parens (kw "tuple" :: tuple_docs ps)).
    - intros k. apply tuple_flat. exact H.
  Qed.

  Lemma read_literal l : ok_literal show read l -> reads_term (Lit l).
  Proof.
    intros Hl. assert (G : (forall n, parses n delim (p_term read n) (print_literal show l) (Lit l)) /\ starty (print_literal show l)); [|split; [apply G|split; [apply G|intros n; constructor]]].
    destruct l as [t|m|b|f]; cbn [print_literal].
    - split; [|exists 34, (chars (flat_map escape t ++ [34])); split; [reflexivity|]; split; [split; [reflexivity|discriminate]|]; repeat split; discriminate].
      intros k s r Hs Hr Hk. apply renders_chars in Hs. subst s. destruct k; [lens|]. unfold show_string in *. cbn [app p_term] in *. rewrite <- app_assoc. cbn [app].
      rewrite wildcard_first, var_first by discriminate. rewrite (word_first "[") by (cbn; lia). unfold p_literal. change (word """" (34 :: flat_map escape t ++ 34 :: r)) with (Some (flat_map escape t ++ 34 :: r)). cbv iota.
      rewrite p_string_ok by (rewrite app_length; lia). reflexivity.
    - cbn in Hl. destruct (show_nat_ok m) as (_ & Hd & Hne). destruct (sign_digit_start (show_nat m)) as (c & q & Eq & Hc & Hc').
      { exists [], (show_nat m), []. rewrite app_nil_r. split; [reflexivity|]. split; [left; reflexivity|split; assumption]. }
      split; [|exists c, (chars q); split; [rewrite Eq; reflexivity|exact Hc]].
      intros k s r Hs Hr Hk. apply renders_chars in Hs. subst s. destruct k; [lens|]. cbn [p_term]. destruct (p_nat_ok m r Hl Hr) as [E1 E2].
      destruct (number_before c (q ++ r) Hc') as (H1 & H2 & H3 & H4). change (c :: q ++ r) with ((c :: q) ++ r) in *. rewrite <- Eq in *.
      rewrite H1, H2, H3. unfold p_literal. rewrite H4, E1, E2. reflexivity.
    - split; [|apply starty_parens]. intros k s r Hs Hr Hk. destruct (parens_text _ _ Hs) as (s1 & -> & Hs1). change (kw "bytes") with (chars (text "bytes")) in Hs1. destruct (words_text _ _ _ Hs1) as (s2 & -> & Hs2).
      cbn [lead flat_map] in Hs2. rewrite app_nil_r in Hs2. destruct (renders_line _ _ Hs2) as (w & s3 & -> & Hw & Hs3). apply renders_chars in Hs3. subst s3.
      destruct k; [lens|]. cbn [p_term app]. rewrite <- !app_assoc. cbn [app]. rewrite wildcard_first, var_first by discriminate. rewrite (word_first "[") by (cbn; lia).
      unfold p_literal. rewrite word_first by (cbn; lia). rewrite float_first, nat_first by (try reflexivity; lia).
      unfold p_bytes. rewrite open_text by (split; [reflexivity|discriminate]). unfold word at 1. rewrite lit_app. rewrite <- ?app_assoc. rewrite skip_blank by exact Hw. cbn [app]. rewrite <- ?app_assoc. cbn [app].
      rewrite skip_solid by apply solid_quote. rewrite p_base64_ok by exact Hl. unfold close. rewrite skip_solid by apply close_solid. reflexivity.
    - destruct Hl as [Hf Hrd]. destruct (sign_digit_start (show f)) as (c & q & Eq & Hc & Hc').
      { destruct Hf as (sg & a & b & e & E & Hsg & Ha & _). exists sg, a, (46 :: b ++ e). tauto. }
      split; [|exists c, (chars q); split; [rewrite Eq; reflexivity|exact Hc]].
      intros k s r Hs Hr Hk. apply renders_chars in Hs. subst s. destruct k; [lens|]. cbn [p_term].
      destruct (number_before c (q ++ r) Hc') as (H1 & H2 & H3 & H4). change (c :: q ++ r) with ((c :: q) ++ r) in *. rewrite <- Eq in *.
      rewrite H1, H2, H3. unfold p_literal. rewrite H4. rewrite p_float_ok by assumption. rewrite consumed_app, Hrd. reflexivity.
  Qed.

  Lemma all_parts (ps : list (part (@term F))) (P Q : @term F -> Prop) : Forall (fun p => match p with Item t | Splice t => P t -> Q t end) ps ->
    all (fun p => match p with Item t | Splice t => P t end) ps -> Forall (fun p => match p with Item t | Splice t => Q t end) ps.
  Proof. induction 1 as [|p ps Hp _ IH]; intros H; [constructor|]. destruct H as [H1 H2]. constructor; [destruct p; auto|apply IH; exact H2]. Qed.
  Lemma read_term t : ok_term show read t -> reads_term t.
  Proof.
    induction t as [|n|n ts IH|ps IH|l|ps IH|r] using term_induction; cbn [ok_term]; intros H.
    - apply read_wildcard.
    - apply read_var. exact H.
    - destruct H as (Hn & H1 & H2 & H3). destruct ts as [|t ts]; [apply read_name; [exact Hn|apply H1; reflexivity]|].
      destruct H2 as [Ha Hb]; [discriminate|]. apply read_apply; [discriminate|assumption..|]. clear - IH H3. induction IH as [|x l Hx _ IHl]; [constructor|]. destruct H3 as [G1 G2]. constructor; [apply Hx; exact G1|apply IHl; exact G2].
    - apply read_list. exact (all_parts ps _ _ IH H).
    - apply read_literal. exact H.
    - apply read_tuple. exact (all_parts ps _ _ IH H).
    - destruct H.
  Qed.
End Term.
