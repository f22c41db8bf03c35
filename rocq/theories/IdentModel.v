(** Dotted extension names.

    Source: hugr-core/src/hugr/ident.rs.

    A string is its list of Unicode scalar values.  The regular expression is kept as a regular
    expression and matched by derivatives; the character classes [\w] and [\d] are parameters
    (their tables are in the regex crate). *)
From Coq Require Import List Bool NArith.
Import ListNotations.

Definition str := list N.
Definition dot : N := 46.

(** Regular expressions over predicates on characters; [^...$] without flags anchors at both ends
    of the text (regex crate, [Regex::is_match]). *)
Inductive re :=
| RNone
| REps
| RCls (p : N -> bool)
| RSeq (r s : re)
| RAlt (r s : re)
| RStar (r : re).

Fixpoint nullable (r : re) : bool :=
  match r with
  | RNone => false
  | REps => true
  | RCls _ => false
  | RSeq r s => nullable r && nullable s
  | RAlt r s => nullable r || nullable s
  | RStar _ => true
  end.

Fixpoint deriv (c : N) (r : re) : re :=
  match r with
  | RNone | REps => RNone
  | RCls p => if p c then REps else RNone
  | RSeq r s =>
    if nullable r then RAlt (RSeq (deriv c r) s) (deriv c s) else RSeq (deriv c r) s
  | RAlt r s => RAlt (deriv c r) (deriv c s)
  | RStar r => RSeq (deriv c r) (RStar r)
  end.

Fixpoint re_match (r : re) (s : str) : bool :=
  match s with
  | [] => nullable r
  | c :: t => re_match (deriv c r) t
  end.

Section Ident.
  Variables word digit : N -> bool.

  (** ident.rs:8 [PATH_COMPONENT_REGEX_STR], [[\w--\d]\w*]. *)
  Definition component_re : re :=
    RSeq (RCls (fun c => word c && negb (digit c))) (RStar (RCls word)).

  (** ident.rs:9-14 [PATH_REGEX]. *)
  Definition path_re : re :=
    RSeq component_re (RStar (RSeq (RCls (N.eqb dot)) component_re)).

  (** ident.rs:34-41 [IdentList::new]: [None] is the [InvalidIdentifier] error. *)
  Definition ident_new (s : str) : option str :=
    if re_match path_re s then Some s else None.

  (** ident.rs:16-27 the derived [Deserialize]: takes any string. *)
  Definition ident_deserialize (s : str) : option str := Some s.

  (** std [str::rsplit_once('.')]. *)
  Fixpoint rsplit_once (s : str) : option (str * str) :=
    match s with
    | [] => None
    | c :: t =>
      match rsplit_once t with
      | Some (p, q) => Some (c :: p, q)
      | None => if N.eqb c dot then Some ([], t) else None
      end
    end.

  (** ident.rs:58-63 [split_last]. *)
  Definition split_last (s : str) : option (str * str) := rsplit_once s.

  (** ident.rs:73-75 [new_unchecked]: [SmolStr::new_inline] panics ([None]) above 23 bytes;
      [utf8_len] is the UTF-8 length of a character. *)
  Definition utf8_len (c : N) : N :=
    if N.ltb c 128 then 1 else if N.ltb c 2048 then 2 else if N.ltb c 65536 then 3 else 4.
  Definition byte_len (s : str) : N := fold_right (fun c n => (utf8_len c + n)%N) 0%N s.
  Definition new_unchecked (s : str) : option str :=
    if N.leb (byte_len s) 23 then Some s else None.
End Ident.
