(** Names of monomorphised functions.

    Source: hugr-passes/src/monomorphize.rs:217-263.

    A string is its list of Unicode scalar values. *)
From Coq Require Import List NArith DecimalN.
Import ListNotations.
Open Scope N_scope.

Definition chr_dollar : N := 36.
Definition chr_open : N := 40.
Definition chr_close : N := 41.
Definition chr_back : N := 92.

(** monomorphize.rs:229-231 [escape_dollar]. *)
Definition escape_dollar (s : list N) : list N :=
  flat_map (fun c => if c =? chr_dollar then [chr_back; chr_dollar] else [c]) s.

(** Decimal [Display] of a [u64]. *)
Fixpoint uint_chars (d : Decimal.uint) : list N :=
  match d with
  | Decimal.Nil => []
  | Decimal.D0 d => 48 :: uint_chars d
  | Decimal.D1 d => 49 :: uint_chars d
  | Decimal.D2 d => 50 :: uint_chars d
  | Decimal.D3 d => 51 :: uint_chars d
  | Decimal.D4 d => 52 :: uint_chars d
  | Decimal.D5 d => 53 :: uint_chars d
  | Decimal.D6 d => 54 :: uint_chars d
  | Decimal.D7 d => 55 :: uint_chars d
  | Decimal.D8 d => 56 :: uint_chars d
  | Decimal.D9 d => 57 :: uint_chars d
  end.
Definition show_nat (n : N) : list N := uint_chars (N.to_uint n).

Section Mangle.
  (** Types and their [Display]. *)
  Variable T : Type.
  Variable show_type : T -> list N.

  (** The terms a function may be instantiated with (hugr-core types/type_param.rs); [AOther]
      stands for variables and for the terms that are not handled. *)
  Inductive targ :=
  | ARuntime (t : T)
  | ANat (n : N)
  | AString (s : list N)
  | AList (l : list targ)
  | ATuple (l : list targ)
  | AOther.

  (** monomorphize.rs:217-227, 233-246 [TypeArgsSeq], [write_type_arg_str]; [None] is the panic.
      The prefixes are "t(", "n(", "s(", "list(" and "tuple(". *)
  Fixpoint write_arg (a : targ) : option (list N) :=
    let seq := fix seq (l : list targ) : option (list N) :=
      match l with
      | [] => Some []
      | x :: t =>
        match write_arg x with
        | None => None
        | Some s => match seq t with None => None | Some s' => Some (chr_dollar :: s ++ s') end
        end
      end in
    match a with
    | ARuntime t => Some (116 :: chr_open :: escape_dollar (show_type t) ++ [chr_close])
    | ANat n => Some (110 :: chr_open :: show_nat n ++ [chr_close])
    | AString s => Some (115 :: chr_open :: escape_dollar s ++ [chr_close])
    | AList l =>
      match seq l with
      | None => None
      | Some s => Some (108 :: 105 :: 115 :: 116 :: chr_open :: s ++ [chr_close])
      end
    | ATuple l =>
      match seq l with
      | None => None
      | Some s => Some (116 :: 117 :: 112 :: 108 :: 101 :: chr_open :: s ++ [chr_close])
      end
    | AOther => None
    end.

  Fixpoint write_args (l : list targ) : option (list N) :=
    match l with
    | [] => Some []
    | x :: t =>
      match write_arg x with
      | None => None
      | Some s => match write_args t with None => None | Some s' => Some (chr_dollar :: s ++ s') end
      end
    end.

  (** monomorphize.rs:260-263 [mangle_name]. *)
  Definition mangle_name (name : list N) (args : list targ) : option (list N) :=
    match write_args args with
    | None => None
    | Some s => Some (chr_dollar :: escape_dollar name ++ chr_dollar :: s)
    end.
End Mangle.
Arguments ARuntime {T} t.
Arguments ANat {T} n.
Arguments AString {T} s.
Arguments AList {T} l.
Arguments ATuple {T} l.
Arguments AOther {T}.

(** Extension types and their [Display] (hugr-core/src/types/custom.rs:164-174): the extension
    is not shown.  The arguments are given as they are shown; the separator is ", ". *)
Record ctype := { ct_ext : list N; ct_id : list N; ct_args : list (list N) }.
Fixpoint show_list (l : list (list N)) : list N :=
  match l with [] => [] | [a] => a | a :: t => a ++ 44 :: 32 :: show_list t end.
Definition show_ctype (c : ctype) : list N :=
  ct_id c ++ match ct_args c with
             | [] => []
             | l => chr_open :: show_list l ++ [chr_close]
             end.
