(** What it means that the text form keeps a module: texts of a document, and the modules that have a text form. *)
From Coq Require Import String Ascii List Bool NArith Arith.
From Verif Require Import TextModel.
Import ListNotations.
Open Scope N_scope.
Open Scope list_scope.

(** ** Texts of a document: every [line] is laid out as blanks and line breaks, at least one. *)
Definition blank (w : str) : Prop := w <> [] /\ forall c, In c w -> c = 32 \/ c = 10.
Inductive renders : doc -> str -> Prop :=
| r_nil : renders [] []
| r_char c d s : renders d s -> renders (Some c :: d) (c :: s)
| r_line w d s : blank w -> renders d s -> renders (None :: d) (w ++ s).

(** ** Names *)
Definition letter (c : N) : Prop := 65 <= c <= 90 \/ 97 <= c <= 122.
Definition digit (c : N) : Prop := 48 <= c <= 57.
Definition name_char (c : N) : Prop := letter c \/ digit c \/ c = 95 \/ c = 45.
Definition ident (n : str) : Prop := exists c r, n = c :: r /\ (letter c \/ c = 95 \/ c = 45) /\ Forall name_char r.
Fixpoint dotted (segs : list str) : str := match segs with [] => [] | [a] => a | a :: segs => a ++ 46 :: dotted segs end.
(** Names that are taken. *)
Definition keywords : list str :=
  map text ["mod"; "hugr"; "bytes"; "tuple"; "list"; "meta"; "signature"; "public"; "private"; "dfg"; "cfg"; "block"; "define-func";
            "declare-func"; "declare-operation"; "declare-ctr"; "declare-alias"; "tail-loop"; "cond"; "import"]%string.
Definition symbol_name (n : str) : Prop := (exists segs, segs <> [] /\ Forall ident segs /\ n = dotted segs) /\ ~ In n keywords.
Definition link_name (n : str) : Prop := Forall name_char n.

Definition starts (k : string) (n : str) : Prop := exists r, n = text k ++ r.
(** The first segment starts with the word [k]; this does not count if it is the word, and other segments follow. *)
Definition clash (k : string) (n : str) : Prop := exists r, n = text k ++ r /\ (r = [] \/ exists c r', r = c :: r' /\ c <> 46).
(** The first segment is an underscore. *)
Definition wild (n : str) : Prop := n = [95] \/ exists r, n = 95 :: 46 :: r.

Section All.
  Context {A : Type}.
  Variable P : A -> Prop.
  Fixpoint all (l : list A) : Prop := match l with [] => True | a :: l => P a /\ all l end.
End All.

Section Ok.
  Context {F : Type}.
  Variable show : F -> str.
  Variable read : str -> F.
  Notation term := (@term F).
  Notation region := (@region F).
  Notation node := (@node F).

  (** ** Literals *)
  Definition digits_text (s : str) : Prop := s <> [] /\ Forall digit s.
  Definition sign_text (s : str) : Prop := s = [] \/ s = [43] \/ s = [45].
  Definition float_text (s : str) : Prop :=
    exists sg a b e, s = sg ++ a ++ 46 :: b ++ e /\ sign_text sg /\ digits_text a /\ digits_text b /\
    (e = [] \/ exists sg' d, e = 101 :: sg' ++ d /\ sign_text sg' /\ digits_text d).
  Definition ok_literal (l : literal) : Prop :=
    match l with
    | LStr _ => True
    | LNat n => n < 2 ^ 64
    | LBytes b => Forall (fun c => c < 256) b
    | LFloat f => float_text (show f) /\ read (show f) = f
    end.

  (** ** Terms *)
  Fixpoint ok_term (t : term) : Prop :=
    match t with
    | Wildcard => True
    | Var n => ident n
    | Apply n ts => symbol_name n /\ (ts = [] -> ~ wild n) /\ (ts <> [] -> ~ clash "tuple" n /\ ~ clash "fn" n) /\ all ok_term ts
    | List ps | Tuple ps => all (fun p => match p with Item t | Splice t => ok_term t end) ps
    | Lit l => ok_literal l
    | Func _ => False
    end.
  (** The term with the lists that are spliced into lists, and the tuples that are spliced into tuples, dissolved. *)
  Definition parts_of (t : term) : list (part term) := match t with List ps | Tuple ps => ps | _ => [] end.
  Fixpoint norm (t : term) : term :=
    match t with
    | Apply n ts => Apply n (map norm ts)
    | List ps => List (flat_map (fun p => match p with
                                          | Item t => [Item (norm t)]
                                          | Splice t => match t with List _ => parts_of (norm t) | _ => [Splice (norm t)] end
                                          end) ps)
    | Tuple ps => Tuple (flat_map (fun p => match p with
                                            | Item t => [Item (norm t)]
                                            | Splice t => match t with Tuple _ => parts_of (norm t) | _ => [Splice (norm t)] end
                                            end) ps)
    | _ => t
    end.

  (** ** Symbols, nodes, regions *)
  Definition ok_symbol (s : symbol term) : Prop :=
    symbol_name (s_name s) /\ (s_vis s = None -> ~ starts "public" (s_name s) /\ ~ starts "private" (s_name s)) /\
    Forall (fun p => ident (fst p) /\ ok_term (snd p)) (s_params s) /\ Forall ok_term (s_where s) /\ ok_term (s_sig s) /\
    (forall n ts, s_sig s = Apply n ts -> ts <> [] -> ~ starts "param" n /\ ~ starts "where" n).
  Definition norm_symbol (s : symbol term) : symbol term :=
    Symbol (s_vis s) (s_name s) (map (fun p => (fst p, norm (snd p))) (s_params s)) (map norm (s_where s)) (norm (s_sig s)).
  Definition ok_operation (o : operation term) : Prop :=
    match o with
    | Invalid => False
    | DefineFunc s | DeclareFunc s | DeclareAlias s | DeclareConstructor s | DeclareOperation s => ok_symbol s
    | DefineAlias s t => ok_symbol s /\ ok_term t
    | Custom t =>
      ok_term t /\
      forall n, t = Apply n [] ->
      Forall (fun k => ~ starts k n) ["import"; "meta"; "signature"; "define-func"; "declare-func"; "define-alias"; "declare-alias"; "declare-ctr"; "declare-operation"]%string
    | Import n => symbol_name n
    | Dfg | Cfg | Block | TailLoop | Conditional => True
    end.
  Definition norm_operation (o : operation term) : operation term :=
    match o with
    | DefineFunc s => DefineFunc (norm_symbol s)
    | DeclareFunc s => DeclareFunc (norm_symbol s)
    | DeclareAlias s => DeclareAlias (norm_symbol s)
    | DeclareConstructor s => DeclareConstructor (norm_symbol s)
    | DeclareOperation s => DeclareOperation (norm_symbol s)
    | DefineAlias s t => DefineAlias (norm_symbol s) (norm t)
    | Custom t => Custom (norm t)
    | o => o
    end.
  (** Nodes that introduce a symbol have no ports and no signature; only function definitions among them have regions. *)
  Definition may_have (o : operation term) (ins outs : list str) (rs : list region) (g : option term) : Prop :=
    match o with
    | Dfg | Cfg | Block | TailLoop | Conditional | Custom _ => True
    | DefineFunc _ => ins = [] /\ outs = [] /\ g = None
    | _ => ins = [] /\ outs = [] /\ g = None /\ rs = []
    end.
  Definition ok_opt (g : option term) : Prop := match g with Some t => ok_term t | None => True end.
  Fixpoint ok_region (r : region) : Prop :=
    match r with
    | Region _ src tgt ns m g => Forall link_name src /\ Forall link_name tgt /\ all ok_node ns /\ Forall ok_term m /\ ok_opt g
    end
  with ok_node (n : node) : Prop :=
    match n with
    | Node o ins outs rs m g =>
      ok_operation o /\ may_have o ins outs rs g /\ Forall link_name ins /\ Forall link_name outs /\ all ok_region rs /\ Forall ok_term m /\ ok_opt g
    end.
  Fixpoint norm_region (r : region) : region :=
    match r with Region k src tgt ns m g => Region k src tgt (map norm_node ns) (map norm m) (option_map norm g) end
  with norm_node (n : node) : node :=
    match n with Node o ins outs rs m g => Node (norm_operation o) ins outs (map norm_region rs) (map norm m) (option_map norm g) end.

  (** The root of a module is a region of its kind, without ports and signature. *)
  Definition ok_module (m : module) : Prop :=
    ok_region m /\ exists ns ms, m = Region ModuleRegion [] [] ns ms None.
End Ok.
