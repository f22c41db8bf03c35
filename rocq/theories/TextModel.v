(** Model of the text form of HUGR modules: printer and parser.
    Source: hugr-model/src/v0/ast/print.rs, hugr-model/src/v0/ast/parse.rs, hugr-model/src/v0/ast/hugr.pest,
            hugr-model/src/v0/ast/mod.rs.

    A string is its list of Unicode scalar values.  The grammar is interpreted as the pest crate does: ordered choice,
    greedy repetition and options, white space and comments skipped between the parts of a rule that is not atomic.
    [None] is a mismatch; a match comes with what the functions of parse.rs make of it: a value ([Good]), an error
    ([Bad]) or a panic.  The layout of the pretty printer (external) is left open: a [line] is a blank or a line break
    with indentation.  How floats are written and read is a parameter ([show], [read]), as this is done by the Rust standard
    library. *)
From Coq Require Import String Ascii List Bool NArith Arith.
Import ListNotations.
Open Scope N_scope.
Open Scope list_scope.

Definition str := list N.
(** Text constants. *)
Definition text (s : string) : str := map N_of_ascii (list_ascii_of_string s).

(** * Syntax *)
(** v0/mod.rs:558-567 [Literal] *)
Inductive literal {F : Type} := LStr (s : str) | LNat (n : N) | LBytes (b : list N) | LFloat (f : F).
(** ast/mod.rs:282-287 [SeqPart] *)
Inductive part (T : Type) := Item (t : T) | Splice (t : T).
Arguments Item {T}. Arguments Splice {T}.
(** v0/mod.rs:114-119 [Visibility], :405-413 [RegionKind] *)
Inductive visibility := Private | Public.
Inductive region_kind := DataFlow | ControlFlow | ModuleRegion.
(** ast/mod.rs:190-220 [Symbol], [Param] *)
Record symbol (T : Type) := Symbol { s_vis : option visibility; s_name : str; s_params : list (str * T); s_where : list T; s_sig : T }.
Arguments Symbol {T}. Arguments s_vis {T}. Arguments s_name {T}. Arguments s_params {T}. Arguments s_where {T}. Arguments s_sig {T}.
(** ast/mod.rs:126-162 [Operation] *)
Inductive operation (T : Type) :=
| Invalid | Dfg | Cfg | Block | DefineFunc (s : symbol T) | DeclareFunc (s : symbol T) | Custom (t : T)
| DefineAlias (s : symbol T) (t : T) | DeclareAlias (s : symbol T) | TailLoop | Conditional | DeclareConstructor (s : symbol T)
| DeclareOperation (s : symbol T) | Import (n : str).
Arguments Invalid {T}. Arguments Dfg {T}. Arguments Cfg {T}. Arguments Block {T}. Arguments DefineFunc {T}. Arguments DeclareFunc {T}.
Arguments Custom {T}. Arguments DefineAlias {T}. Arguments DeclareAlias {T}. Arguments TailLoop {T}. Arguments Conditional {T}.
Arguments DeclareConstructor {T}. Arguments DeclareOperation {T}. Arguments Import {T}.

Section Syntax.
  Context {F : Type}.
  (** ast/mod.rs:252-268 [Term], :228-241 [Region], :106-124 [Node] *)
  Inductive term :=
  | Wildcard | Var (n : str) | Apply (n : str) (ts : list term) | List (ps : list (part term)) | Lit (l : @literal F)
  | Tuple (ps : list (part term)) | Func (r : region)
  with region := Region (k : region_kind) (sources targets : list str) (children : list node) (meta : list term) (sig : option term)
  with node := Node (o : operation term) (inputs outputs : list str) (regions : list region) (meta : list term) (sig : option term).
  (** ast/mod.rs:73-78 [Module], :46-49 [Package] *)
  Definition module := region.
  Definition package := list module.
End Syntax.

(** * Base64 (the [STANDARD] engine of the base64 crate: alphabet of RFC 4648, canonical padding) *)
Definition b64_char (n : N) : N :=
  if n <? 26 then n + 65 else if n <? 52 then n + 71 else if n <? 62 then n - 4 else if n =? 62 then 43 else 47.
Definition b64_value (c : N) : option N :=
  if (65 <=? c) && (c <=? 90) then Some (c - 65) else if (97 <=? c) && (c <=? 122) then Some (c - 71)
  else if (48 <=? c) && (c <=? 57) then Some (c + 4) else if c =? 43 then Some 62 else if c =? 47 then Some 63 else None.
Fixpoint b64_encode (b : list N) : str :=
  match b with
  | [] => []
  | [x] => [b64_char (x / 4); b64_char (x mod 4 * 16); 61; 61]
  | [x; y] => [b64_char (x / 4); b64_char (x mod 4 * 16 + y / 16); b64_char (y mod 16 * 4); 61]
  | x :: y :: z :: b => b64_char (x / 4) :: b64_char (x mod 4 * 16 + y / 16) :: b64_char (y mod 16 * 4 + z / 64) :: b64_char (z mod 64) :: b64_encode b
  end.
Fixpoint b64_decode (s : str) : option (list N) :=
  match s with
  | [] => Some []
  | p :: q :: r :: t :: s =>
    match b64_value p, b64_value q with
    | Some p, Some q =>
      if (r =? 61) && (t =? 61) && (match s with [] => true | _ => false end) then if q mod 16 =? 0 then Some [p * 4 + q / 16] else None
      else match b64_value r with
           | None => None
           | Some r =>
             if (t =? 61) && (match s with [] => true | _ => false end) then if r mod 4 =? 0 then Some [p * 4 + q / 16; q mod 16 * 16 + r / 4] else None
             else match b64_value t, b64_decode s with
                  | Some t, Some b => Some (p * 4 + q / 16 :: q mod 16 * 16 + r / 4 :: r mod 4 * 64 + t :: b)
                  | _, _ => None
                  end
           end
    | _, _ => None
    end
  | _ => None
  end.

(** * Printing *)
(** A document: characters and places for line breaks. *)
Definition doc := list (option N).
Definition chars (s : str) : doc := map Some s.
Definition kw (s : string) : doc := chars (text s).
(** [intersperse] with [line] *)
Fixpoint lines (ds : list doc) : doc := match ds with [] => [] | [d] => d | d :: ds => d ++ None :: lines ds end.
(** print.rs:37-75 [parens_exit], [brackets_exit], [group_exit] *)
Definition parens (ds : list doc) : doc := kw "(" ++ lines ds ++ kw ")".
Definition brackets (ds : list doc) : doc := kw "[" ++ lines ds ++ kw "]".

(** Decimal digits of a number. *)
Fixpoint digits (fuel : nat) (n : N) (acc : str) : str :=
  match fuel with
  | O => acc
  | S fuel => let acc := (48 + n mod 10) :: acc in if n <? 10 then acc else digits fuel (n / 10) acc
  end.
Definition show_nat (n : N) : str := digits (S (N.to_nat (N.size n))) n [].

(** print.rs:87-104 [string] *)
Definition escape (c : N) : str :=
  if c =? 92 then text "\\" else if c =? 34 then [92; 34] else if c =? 10 then text "\n" else if c =? 13 then text "\r"
  else if c =? 9 then text "\t" else [c].
Definition show_string (s : str) : str := [34] ++ flat_map escape s ++ [34].

Section Print.
  Context {F : Type}.
  Variable show : F -> str.
  Notation term := (@term F).
  Notation region := (@region F).
  Notation node := (@node F).

  (** print.rs:157-176 [print_literal], :106-113 [bytes] *)
  Definition print_literal (l : literal) : doc :=
    match l with
    | LStr s => chars (show_string s)
    | LNat n => chars (show_nat n)
    | LBytes b => parens [kw "bytes"; chars ([34] ++ b64_encode b ++ [34])]
    | LFloat f => chars (show f)
    end.
  (** print.rs:444-460 [Display] of names *)
  Definition print_var (n : str) : doc := kw "?" ++ chars n.
  Definition print_link (n : str) : doc := kw "%" ++ chars n.
  (** print.rs:178-183 [print_seq_splice] *)
  Definition print_splice (d : doc) : doc := lines [d; kw "..."].

  (** print.rs:227-253 [print_port_lists] *)
  Definition print_ports (ins outs : list str) : list doc :=
    match ins, outs with
    | [], [] => []
    | _, _ => [lines [brackets (map print_link ins); brackets (map print_link outs)]]
    end.
  (** print.rs:406-411 [print_meta_item], :413-418 [print_signature], :399-404 [print_constraint], :391-397 [print_param] *)
  Definition print_meta (d : doc) : doc := parens [kw "meta"; d].
  Definition print_signature (d : doc) : doc := parens [kw "signature"; d].
  Definition print_constraint (d : doc) : doc := parens [kw "where"; d].
  Definition print_param (n : str) (d : doc) : doc := parens [kw "param"; print_var n; d].
  (** print.rs:371-389 [print_symbol] *)
  Definition print_symbol (pt : term -> doc) (s : symbol term) : list doc :=
    match s_vis s with None => [] | Some Private => [kw "private"] | Some Public => [kw "public"] end ++
    [chars (s_name s)] ++ map (fun p => print_param (fst p) (pt (snd p))) (s_params s) ++ map (fun t => print_constraint (pt t)) (s_where s) ++ [pt (s_sig s)].
  (** print.rs:284-323, the operation of a node *)
  Definition print_operation (pt : term -> doc) (o : operation term) : list doc :=
    match o with
    | Invalid => [kw "invalid"]
    | Dfg => [kw "dfg"]
    | Cfg => [kw "cfg"]
    | Block => [kw "block"]
    | DefineFunc s => kw "define-func" :: print_symbol pt s
    | DeclareFunc s => kw "declare-func" :: print_symbol pt s
    | Custom t => [pt t]
    | DefineAlias s v => kw "define-alias" :: print_symbol pt s ++ [pt v]
    | DeclareAlias s => kw "declare-alias" :: print_symbol pt s
    | TailLoop => [kw "tail-loop"]
    | Conditional => [kw "cond"]
    | DeclareConstructor s => kw "declare-ctr" :: print_symbol pt s
    | DeclareOperation s => kw "declare-operation" :: print_symbol pt s
    | Import n => [kw "import"; chars n]
    end.
  Definition print_kind (k : region_kind) : doc := match k with DataFlow => kw "dfg" | ControlFlow => kw "cfg" | ModuleRegion => kw "mod" end.
  Definition opt_doc {A} (p : A -> doc) (o : option A) : list doc := match o with Some a => [p a] | None => [] end.

  (** print.rs:116-155 [print_term], :194-213 [print_list_parts], [print_tuple_parts], :343-369 [print_region], :280-341 [print_node].
      A term gives its text and, for a list or a tuple, the texts of its parts. *)
  Fixpoint print_both (t : term) : doc * list doc :=
    match t with
    | Wildcard => (kw "_", [])
    | Var n => (print_var n, [])
    | Apply n [] => (chars n, [])
    | Apply n ts => (parens (chars n :: map (fun t => fst (print_both t)) ts), [])
    | List ps =>
      let ds := flat_map (fun p => match p with
                                   | Item t => [fst (print_both t)]
                                   | Splice t => match t with List _ => snd (print_both t) | _ => [print_splice (fst (print_both t))] end
                                   end) ps in
      (brackets ds, ds)
    | Lit l => (print_literal l, [])
    | Tuple ps =>
      let ds := flat_map (fun p => match p with
                                   | Item t => [fst (print_both t)]
                                   | Splice t => match t with Tuple _ => snd (print_both t) | _ => [print_splice (fst (print_both t))] end
                                   end) ps in
      (parens (kw "tuple" :: ds), ds)
    | Func r => (parens [kw "fn"; print_region r], [])
    end
  with print_region (r : region) : doc :=
    match r with
    | Region k src tgt children meta sig =>
      parens (lines (print_kind k :: print_ports src tgt) :: opt_doc (fun t => print_signature (fst (print_both t))) sig ++
              map (fun t => print_meta (fst (print_both t))) meta ++ map print_node children)
    end
  with print_node (n : node) : doc :=
    match n with
    | Node o ins outs regions meta sig =>
      parens (lines (print_operation (fun t => fst (print_both t)) o ++ print_ports ins outs) :: opt_doc (fun t => print_signature (fst (print_both t))) sig ++
              map (fun t => print_meta (fst (print_both t))) meta ++ map print_region regions)
    end.
  Definition print_term (t : term) : doc := fst (print_both t).

  (** print.rs:270-278 [print_module]; the documents at the top are separated by empty lines (print.rs:31-36 [finish]) *)
  Definition module_docs (m : module) : list doc :=
    match m with Region _ _ _ children meta _ => map (fun t => print_meta (print_term t)) meta ++ map print_node children end.
  Definition print_module (m : module) : doc := lines (module_docs m).
  (** print.rs:255-268 [print_package] *)
  Definition print_package (p : package) : doc :=
    lines (parens [kw "hugr"; kw "0"] :: flat_map (fun m => parens [kw "mod"] :: module_docs m) p).
End Print.

(** * Parsing *)
Inductive res (A : Type) := Good (a : A) | Bad | Panic.
Arguments Good {A}. Arguments Bad {A}. Arguments Panic {A}.
Definition rbind {A B} (x : res A) (f : A -> res B) : res B := match x with Good a => f a | Bad => Bad | Panic => Panic end.
Definition rmap {A B} (f : A -> B) (x : res A) : res B := rbind x (fun a => Good (f a)).
(** A result and the rest of the input. *)
Definition parser (A : Type) := str -> option (res A * str).

(** Strip a prefix. *)
Fixpoint lit (k : str) (s : str) : option str :=
  match k, s with
  | [], _ => Some s
  | a :: k, b :: s => if a =? b then lit k s else None
  | _ :: _, [] => None
  end.
Definition word (k : string) (s : str) : option str := lit (text k) s.

(** hugr.pest:1-2 [WHITESPACE], [COMMENT]; a comment that no line break ends is not skipped *)
Definition is_ws (c : N) : bool := (c =? 32) || (c =? 9) || (c =? 13) || (c =? 10).
Fixpoint skip_in (comment : option str) (s : str) : str :=
  match comment, s with
  | Some start, [] => start
  | Some start, c :: r => if c =? 10 then skip_in None r else skip_in comment r
  | None, [] => []
  | None, c :: r => if is_ws c then skip_in None r else if c =? 59 then skip_in (Some s) r else s
  end.
Definition skip (s : str) : str := skip_in None s.

(** ASCII classes of pest *)
Definition is_digit (c : N) : bool := (48 <=? c) && (c <=? 57).
Definition is_alpha (c : N) : bool := (65 <=? c) && (c <=? 90) || (97 <=? c) && (c <=? 122).
Definition is_hex (c : N) : bool := is_digit c || (65 <=? c) && (c <=? 70) || (97 <=? c) && (c <=? 102).
(** hugr.pest:4-5 *)
Definition ident_initial (c : N) : bool := is_alpha c || (c =? 95) || (c =? 45).
Definition ident_rest (c : N) : bool := is_alpha c || is_digit c || (c =? 95) || (c =? 45).
(** The longest prefix of characters of a class. *)
Fixpoint span (f : N -> bool) (s : str) : str * str :=
  match s with
  | c :: r => if f c then let (a, b) := span f r in (c :: a, b) else ([], s)
  | [] => ([], [])
  end.

(** hugr.pest:3 [identifier] *)
Definition p_ident (s : str) : option (str * str) :=
  match s with c :: r => if ident_initial c then let (a, b) := span ident_rest r in Some (c :: a, b) else None | [] => None end.
(** hugr.pest:11-33 [reserved] *)
Definition reserved : list str :=
  map text ["mod"; "hugr"; "bytes"; "tuple"; "list"; "meta"; "signature"; "public"; "private"; "dfg"; "cfg"; "block"; "define-func";
            "declare-func"; "declare-operation"; "declare-ctr"; "declare-alias"; "tail-loop"; "cond"; "import"; "..."]%string.
Fixpoint p_reserved (ks : list str) (s : str) : option str :=
  match ks with [] => None | k :: ks => match lit k s with Some r => Some r | None => p_reserved ks s end end.
(** ("." ~ identifier)* *)
Fixpoint p_segments (fuel : nat) (s : str) : str * str :=
  match fuel with
  | O => ([], s)
  | S fuel =>
    match s with
    | c :: r =>
      if c =? 46 then match p_ident r with Some (a, r) => let (b, r) := p_segments fuel r in (46 :: a ++ b, r) | None => ([], s) end
      else ([], s)
    | [] => ([], s)
    end
  end.
(** hugr.pest:6 [symbol_name] *)
Definition p_symbol_name (s : str) : option (str * str) :=
  if match p_reserved reserved s with
     | Some (c :: _) => negb (ident_rest c || (c =? 46))
     | Some [] => true
     | None => false
     end then None
  else match p_ident s with
       | Some (a, r) => let (b, r) := p_segments (length r) r in Some (a ++ b, r)
       | None => None
       end.
(** hugr.pest:7 [link_name], parse.rs:55-58 [parse_link_name] *)
Definition p_link : parser str := fun s =>
  match lit [37] s with Some r => let (a, r) := span ident_rest r in Some (Good a, r) | None => None end.

(** What has been consumed. *)
Definition consumed (s r : str) : str := firstn (length s - length r) s.

(** Rules of the form [e*] in a rule that is not atomic. *)
Fixpoint more {A} (fuel : nat) (p : parser A) (s : str) : res (list A) * str :=
  match fuel with
  | O => (Good [], s)
  | S fuel =>
    match p (skip s) with
    | Some (a, r) => let (l, r) := more fuel p r in (rbind a (fun a => rmap (cons a) l), r)
    | None => (Good [], s)
    end
  end.
Definition many {A} (p : parser A) (s : str) : res (list A) * str :=
  match p s with
  | Some (a, r) => let (l, r) := more (length r) p r in (rbind a (fun a => rmap (cons a) l), r)
  | None => (Good [], s)
  end.
(** [e?] *)
Definition opt {A} (p : parser A) (s : str) : res (option A) * str :=
  match p s with Some (a, r) => (rmap Some a, r) | None => (Good None, s) end.
(** "(" ~ word *)
Definition open_word (k : string) (s : str) : option str := match word "(" s with Some s => word k (skip s) | None => None end.
(** e ~ ")" *)
Definition close {A} (x : option (res A * str)) : option (res A * str) :=
  match x with Some (a, s) => match word ")" (skip s) with Some s => Some (a, s) | None => None end | None => None end.

(** ** Literals *)
(** hugr.pest:35-38, parse.rs:340-379 [parse_string], after the opening quote *)
Definition hex_value (c : N) : N := if is_digit c then c - 48 else if c <=? 70 then c - 55 else c - 87.
Definition hex_number (s : str) : N := fold_left (fun n c => n * 16 + hex_value c) s 0.
Definition scalar (n : N) : bool := (n <? 55296) || (57344 <=? n) && (n <? 1114112).
Fixpoint p_string_body (fuel : nat) (s : str) : option (res str * str) :=
  match fuel with
  | O => None
  | S fuel =>
    match s with
    | [] => None
    | c :: r =>
      let go x r := match p_string_body fuel r with Some (b, r) => Some (rbind x (fun x => rmap (cons x) b), r) | None => None end in
      if c =? 34 then Some (Good [], r)
      else if c =? 92 then
        match r with
        | [] => None
        | c :: r =>
          if c =? 34 then go (Good 34) r else if c =? 92 then go (Good 92) r else if c =? 110 then go (Good 10) r
          else if c =? 114 then go (Good 13) r else if c =? 116 then go (Good 9) r
          else if c =? 117 then
            match lit [123] r with
            | Some r =>
              match span is_hex r with
              | ([], _) => None
              | (ds, r) =>
                match lit [125] r with
                | Some r => go (if hex_number ds <? 4294967296 then if scalar (hex_number ds) then Good (hex_number ds) else Bad else Bad) r
                | None => None
                end
              end
            | None => None
            end
          else None
        end
      else go (Good c) r
    end
  end.
(** hugr.pest:40-42, parse.rs:398-408 [parse_nat], [parse_float]: the [unwrap] panics on numbers beyond 64 bits *)
Definition nat_value (s : str) : N := fold_left (fun n c => n * 10 + (c - 48)) s 0.
Definition p_nat : parser N := fun s =>
  match span is_digit s with
  | ([], _) => None
  | (ds, r) => Some ((if nat_value ds <? 18446744073709551616 then Good (nat_value ds) else Panic), r)
  end.
(** The text of a float literal. *)
Definition p_sign (s : str) : str := match s with c :: r => if (c =? 43) || (c =? 45) then r else s | [] => [] end.
Definition p_digits (s : str) : option str := match span is_digit s with ([], _) => None | (_, r) => Some r end.
Definition p_float_text (s : str) : option str :=
  match p_digits (p_sign s) with
  | Some r =>
    match lit [46] r with
    | Some r =>
      match p_digits r with
      | Some r => match lit [101] r with
                  | Some r' => match p_digits (p_sign r') with Some r'' => Some r'' | None => Some r end
                  | None => Some r
                  end
      | None => None
      end
    | None => None
    end
  | None => None
  end.
(** hugr.pest:41, 44, parse.rs:381-396 [parse_bytes] *)
Fixpoint skip_class (fuel : nat) (f : N -> bool) (s : str) : str :=
  match fuel with
  | O => s
  | S fuel => match skip s with c :: r => if f c then skip_class fuel f r else s | [] => s end
  end.
Definition repeat_class (f : N -> bool) (s : str) : str := match s with c :: r => if f c then skip_class (length r) f r else s | [] => s end.
Definition p_base64 : parser (list N) := fun s =>
  match word """" s with
  | None => None
  | Some s1 =>
    let s2 := repeat_class (fun c => is_alpha c || is_digit c || (c =? 43) || (c =? 47)) (skip s1) in
    let s3 := repeat_class (fun c => c =? 61) (skip s2) in
    match word """" (skip s3) with
    | None => None
    | Some s4 => Some (match b64_decode (consumed s1 (skip s3)) with Some b => Good b | None => Bad end, s4)
    end
  end.
Definition p_bytes : parser (list N) := fun s => match open_word "bytes" s with Some s => close (p_base64 (skip s)) | None => None end.

Section Parse.
  Context {F : Type}.
  Variable read : str -> F.
  Notation term := (@term F).
  Notation region := (@region F).
  Notation node := (@node F).

  (** hugr.pest:9, parse.rs:96-107 [parse_literal] *)
  Definition p_literal : parser (@literal F) := fun s =>
    match (match word """" s with Some r => p_string_body (S (length r)) r | None => None end) with
    | Some (x, r) => Some (rmap LStr x, r)
    | None =>
      match p_float_text s with
      | Some r => Some (Good (LFloat (read (consumed s r))), r)
      | None =>
        match p_nat s with
        | Some (x, r) => Some (rmap LNat x, r)
        | None => match p_bytes s with Some (x, r) => Some (rmap LBytes x, r) | None => None end
        end
      end
    end.

  (** hugr.pest:108-109 [part], [spliced_term], parse.rs:109-122 [parse_seq_part]; the term is the same in both alternatives *)
  Definition p_part (tm : parser term) : parser (part term) := fun s =>
    match tm s with
    | Some (t, r) => match word "..." (skip r) with Some r' => Some (rmap Splice t, r') | None => Some (rmap Item t, r) end
    | None => None
    end.
  (** hugr.pest:101 [term_wildcard] *)
  Definition p_wildcard (s : str) : option str :=
    match lit [95] s with
    | Some r => match r with c :: _ => if ident_rest c then None else Some r | [] => Some r end
    | None => None
    end.
  (** hugr.pest:102 [term_var], parse.rs:50-53 [parse_var_name]: blanks after the question mark become part of the name *)
  Definition p_var : parser str := fun s =>
    match word "?" s with
    | Some s => match p_ident (skip s) with Some (_, r) => Some (Good (consumed s r), r) | None => None end
    | None => None
    end.

  (** hugr.pest:91-106 [term], parse.rs:60-94 [parse_term].  The grammar asks for a term in a function constant, and
      [parse_region] panics on it (at [unreachable!] in parse.rs:179; with debug assertions earlier). *)
  Fixpoint p_term (fuel : nat) (s : str) : option (res term * str) :=
    match fuel with
    | O => None
    | S fuel =>
      match p_wildcard s with
      | Some r => Some (Good Wildcard, r)
      | None =>
      match p_var s with
      | Some (x, r) => Some (rmap Var x, r)
      | None =>
      match (match word "[" s with
             | Some s => let (ps, s) := many (p_part (p_term fuel)) (skip s) in match word "]" (skip s) with Some r => Some (ps, r) | None => None end
             | None => None
             end) with
      | Some (ps, r) => Some (rmap List ps, r)
      | None =>
      match p_literal s with
      | Some (l, r) => Some (rmap Lit l, r)
      | None =>
      match (match open_word "tuple" s with Some s => close (Some (many (p_part (p_term fuel)) (skip s))) | None => None end) with
      | Some (ps, r) => Some (rmap Tuple ps, r)
      | None =>
      match (match open_word "fn" s with Some s => close (p_term fuel (skip s)) | None => None end) with
      | Some (t, r) => Some (rbind t (fun _ => Panic), r)
      | None =>
      match p_symbol_name s with
      | Some (n, r) => Some (Good (Apply n []), r)
      | None =>
        match word "(" s with
        | Some s =>
          match p_symbol_name (skip s) with
          | Some (n, s) => close (let (ts, s) := many (p_term fuel) (skip s) in Some (rmap (Apply n) ts, s))
          | None => None
          end
        | None => None
        end
      end end end end end end end
    end.

  (** Rules of the form "(" ~ word ~ term ~ ")": [meta], [signature], [where_clause] *)
  Definition p_wrapped (fuel : nat) (k : string) : parser term := fun s =>
    match open_word k s with Some s => close (p_term fuel (skip s)) | None => None end.
  Definition p_meta (fuel : nat) := p_wrapped fuel "meta".
  Definition p_signature (fuel : nat) := p_wrapped fuel "signature".
  Definition p_where (fuel : nat) := p_wrapped fuel "where".
  (** hugr.pest:86 [param], parse.rs:285-291 [parse_param] *)
  Definition p_param (fuel : nat) : parser (str * term) := fun s =>
    match open_word "param" s with
    | Some s =>
      match p_var (skip s) with
      | Some (n, s) => close (match p_term fuel (skip s) with Some (t, s) => Some (rbind n (fun n => rmap (pair n) t), s) | None => None end)
      | None => None
      end
    | None => None
    end.
  (** hugr.pest:53-54 [port_list], [port_lists] *)
  Definition p_port_list : parser (list str) := fun s =>
    match word "[" s with
    | Some s => let (l, s) := many p_link (skip s) in match word "]" (skip s) with Some s => Some (l, s) | None => None end
    | None => None
    end.
  Definition p_ports : parser (list str * list str) := fun s =>
    match p_port_list s with
    | Some (a, s) => match p_port_list (skip s) with Some (b, s) => Some (rbind a (fun a => rmap (pair a) b), s) | None => None end
    | None => None
    end.
  Definition ports_or (o : option (list str * list str)) : list str * list str := match o with Some p => p | None => ([], []) end.

  (** hugr.pest:81, 83 [visibility], [symbol], parse.rs:293-317 [parse_symbol] *)
  Definition p_visibility : parser visibility := fun s =>
    match word "public" s with
    | Some r => Some (Good Public, r)
    | None => match word "private" s with Some r => Some (Good Private, r) | None => None end
    end.
  Definition p_symbol (fuel : nat) : parser (symbol term) := fun s =>
    let (v, s) := opt p_visibility s in
    match p_symbol_name (skip s) with
    | None => None
    | Some (n, s) =>
      let (ps, s) := many (p_param fuel) (skip s) in
      let (ws, s) := many (p_where fuel) (skip s) in
      match p_term fuel (skip s) with
      | None => None
      | Some (t, s) => Some (rbind v (fun v => rbind ps (fun ps => rbind ws (fun ws => rmap (Symbol v n ps ws) t))), s)
      end
    end.

  (** The rest of a node or region after the operation: ports, signature, metadata *)
  Definition p_head (fuel : nat) (s : str) : res ((list str * list str) * option term * list term) * str :=
    let (p, s) := opt p_ports s in
    let (g, s) := opt (p_signature fuel) (skip s) in
    let (m, s) := many (p_meta fuel) (skip s) in
    (rbind p (fun p => rbind g (fun g => rmap (fun m => (ports_or p, g, m)) m)), s).

  Definition p_kind (s : str) : option (region_kind * str) :=
    match word "dfg" s with
    | Some s => Some (DataFlow, s)
    | None => match word "cfg" s with
              | Some s => Some (ControlFlow, s)
              | None => match word "mod" s with Some s => Some (ModuleRegion, s) | None => None end
              end
    end.

  (** Nodes that introduce a symbol: [region* ] only after [define-func] *)
  Definition p_symbol_node (fuel : nat) (k : string) (mk : symbol term -> operation term) (regions : option (str -> res (list region) * str)) : parser node := fun s =>
    match open_word k s with
    | None => None
    | Some s =>
      match p_symbol fuel (skip s) with
      | None => None
      | Some (x, s) =>
        let (m, s) := many (p_meta fuel) (skip s) in
        let (rs, s) := match regions with Some f => f (skip s) | None => (Good [], s) end in
        close (Some (rbind x (fun x => rbind m (fun m => rmap (fun rs => Node (mk x) [] [] rs m None) rs)), s))
      end
    end.
  Definition p_alias_node (fuel : nat) : parser node := fun s =>
    match open_word "define-alias" s with
    | None => None
    | Some s =>
      match p_symbol fuel (skip s) with
      | None => None
      | Some (x, s) =>
        match p_term fuel (skip s) with
        | None => None
        | Some (t, s) =>
          let (m, s) := many (p_meta fuel) (skip s) in
          close (Some (rbind x (fun x => rbind t (fun t => rmap (fun m => Node (DefineAlias x t) [] [] [] m None) m)), s))
        end
      end
    end.
  Definition p_import_node (fuel : nat) : parser node := fun s =>
    match open_word "import" s with
    | None => None
    | Some s =>
      match p_symbol_name (skip s) with
      | None => None
      | Some (n, s) => let (m, s) := many (p_meta fuel) (skip s) in close (Some (rmap (fun m => Node (Import n) [] [] [] m None) m, s))
      end
    end.
  (** What follows the operation of the other nodes *)
  Definition p_body (fuel : nat) (regions : str -> res (list region) * str) (o : res (operation term)) (s : str) : option (res node * str) :=
    let (hd, s) := p_head fuel s in
    let (rs, s) := regions (skip s) in
    close (Some (rbind o (fun o => rbind hd (fun hd => match hd with (p, g, m) => rmap (fun rs => Node o (fst p) (snd p) rs m g) rs end)), s)).
  Definition p_plain_node (fuel : nat) (regions : str -> res (list region) * str) (k : string) (o : operation term) : parser node := fun s =>
    match open_word k s with Some s => p_body fuel regions (Good o) (skip s) | None => None end.
  Definition p_custom_node (fuel : nat) (regions : str -> res (list region) * str) : parser node := fun s =>
    match word "(" s with
    | Some s => match p_term fuel (skip s) with Some (t, s) => p_body fuel regions (rmap Custom t) (skip s) | None => None end
    | None => None
    end.
  Fixpoint first {A} (ps : list (parser A)) (s : str) : option (res A * str) :=
    match ps with [] => None | p :: ps => match p s with Some x => Some x | None => first ps s end end.

  (** hugr.pest:56-79 [node], :88-89 [region]; parse.rs:187-256 [parse_node], :151-170 [parse_region].  Terms get as much fuel
      as the whole input. *)
  Definition node_parsers (fuel : nat) (regions : str -> res (list region) * str) : list (parser node) :=
    [p_plain_node fuel regions "dfg" Dfg; p_plain_node fuel regions "cfg" Cfg; p_plain_node fuel regions "block" Block;
     p_symbol_node fuel "define-func" DefineFunc (Some regions); p_symbol_node fuel "declare-func" DeclareFunc None;
     p_alias_node fuel; p_symbol_node fuel "declare-alias" DeclareAlias None; p_symbol_node fuel "declare-ctr" DeclareConstructor None;
     p_symbol_node fuel "declare-operation" DeclareOperation None; p_plain_node fuel regions "tail-loop" TailLoop;
     p_plain_node fuel regions "cond" Conditional; p_import_node fuel; p_custom_node fuel regions].
  Fixpoint p_region (fuel : nat) (s : str) : option (res region * str) :=
    match fuel with
    | O => None
    | S fuel =>
      match word "(" s with
      | None => None
      | Some s =>
        match p_kind (skip s) with
        | None => None
        | Some (k, s) =>
          let (hd, s) := p_head fuel (skip s) in
          let (ns, s) := many (fun s => first (node_parsers fuel (many (p_region fuel))) s) (skip s) in
          close (Some (rbind hd (fun hd => match hd with (p, g, m) => rmap (fun ns => Region k (fst p) (snd p) ns m g) ns end), s))
        end
      end
    end.
  Definition p_node (fuel : nat) : parser node := fun s => first (node_parsers fuel (many (p_region fuel))) s.

  (** hugr.pest:46-47 [package], [module]; parse.rs:124-149 *)
  Definition p_module (fuel : nat) : parser module := fun s =>
    match close (match open_word "mod" s with Some s => Some (Good tt, s) | None => None end) with
    | None => None
    | Some (_, s) =>
      let (m, s) := many (p_meta fuel) (skip s) in
      let (ns, s) := many (p_node fuel) (skip s) in
      Some (rbind m (fun m => rmap (fun ns => Region ModuleRegion [] [] ns m None) ns), s)
    end.
  Definition p_package (fuel : nat) : parser package := fun s =>
    match open_word "hugr" s with
    | None => None
    | Some s =>
      match word "0" (skip s) with
      | None => None
      | Some s =>
        match word ")" (skip s) with
        | None => None
        | Some s => let (ms, s) := many (p_module fuel) (skip s) in match skip s with [] => Some (ms, []) | _ => None end
        end
      end
    end.

  (** parse.rs:442-467 [FromStr]: what is left of the input is not looked at *)
  Definition from_str {A} (p : nat -> parser A) (s : str) : res A := match p (S (length s)) s with Some (a, _) => a | None => Bad end.
End Parse.
