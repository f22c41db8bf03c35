(** Model of the binary form of packages of tables.
    Source: hugr-model/src/v0/binary/write.rs, hugr-model/src/v0/binary/read.rs, hugr-model/capnp/hugr-v0.capnp, and the
            accessors generated from it, hugr-model/src/capnp/hugr_v0_capnp.rs.

    The capnp crate is modelled by its documentation: a message is a tree of objects.  A struct has a data section, here a list of
    16 bit units, and a section of pointers; fields are read and written at fixed offsets, reading beyond the end of a section
    gives the default.  Not modelled: segments, packing, the encoding of text in UTF-8, and the limits on the size and nesting of
    messages.  Floats are a parameter with their bits. *)
From Coq Require Import String List Bool NArith Arith.
From Verif Require Import TextModel ResolveModel.
Import ListNotations.
Open Scope N_scope.
Open Scope list_scope.

(** * Messages *)
Inductive obj :=
| Null
| Struct (data : list N) (ptrs : list obj)
| Words (l : list N)  (** a list of 32 bit numbers *)
| Structs (l : list obj)
| TextObj (s : str)
| DataObj (b : list N).

(** A struct with [d] words of data and [p] pointers, all zero *)
Definition fresh (d p : nat) : obj := Struct (repeat 0 (4 * d)) (repeat Null p).
Fixpoint put {A} (i : nat) (x : A) (l : list A) : list A :=
  match l, i with [], _ => [] | _ :: l, O => x :: l | y :: l, S i => y :: put i x l end.
Definition data_of (o : obj) : list N := match o with Struct d _ => d | _ => [] end.
Definition ptrs_of (o : obj) : list obj := match o with Struct _ p => p | _ => [] end.
(** [set_data_field], [get_data_field], [get_pointer_field] *)
Definition set16 (i : nat) (v : N) (o : obj) : obj := Struct (put i v (data_of o)) (ptrs_of o).
Definition set32 (i : nat) (v : N) (o : obj) : obj := set16 (2 * i + 1) (v / 65536) (set16 (2 * i) (v mod 65536) o).
Definition set64 (i : nat) (v : N) (o : obj) : obj := set32 (2 * i + 1) (v / 4294967296) (set32 (2 * i) (v mod 4294967296) o).
Definition set_ptr (i : nat) (x : obj) (o : obj) : obj := Struct (data_of o) (put i x (ptrs_of o)).
Definition get16 (i : nat) (o : obj) : N := nth i (data_of o) 0.
Definition get32 (i : nat) (o : obj) : N := get16 (2 * i) o + 65536 * get16 (2 * i + 1) o.
Definition get64 (i : nat) (o : obj) : N := get32 (2 * i) o + 4294967296 * get32 (2 * i + 1) o.
Definition get_ptr (i : nat) (o : obj) : obj := nth i (ptrs_of o) Null.

(** read.rs:8-25 [ReadError] *)
Inductive got (A : Type) := Good (a : A) | Decoding | Version (major minor : N).
Arguments Good {A}. Arguments Decoding {A}. Arguments Version {A}.
Definition gbind {A B} (x : got A) (f : A -> got B) : got B :=
  match x with Good a => f a | Decoding => Decoding | Version a b => Version a b end.
Notation "'let!' x := a 'in' b" := (gbind a (fun x => b)) (at level 200, x name, a at level 100, b at level 200).
Section Collect.
  Context {A B : Type}.
  Variable f : A -> got B.
  Fixpoint collect (l : list A) : got (list B) :=
    match l with [] => Good [] | a :: l => let! b := f a in let! bs := collect l in Good (b :: bs) end.
End Collect.

(** Pointers read as structs, lists, text and data; null pointers give the defaults. *)
Definition as_struct (o : obj) : got obj := match o with Null => Good (Struct [] []) | Struct _ _ => Good o | _ => Decoding end.
Definition as_words (o : obj) : got (list N) := match o with Null => Good [] | Words l => Good l | _ => Decoding end.
Definition as_structs (o : obj) : got (list obj) := match o with Null => Good [] | Structs l => Good l | _ => Decoding end.
Definition as_text (o : obj) : got str := match o with Null => Good [] | TextObj s => Good s | _ => Decoding end.
Definition as_data (o : obj) : got (list N) := match o with Null => Good [] | DataObj b => Good b | _ => Decoding end.

(** lib.rs:19-28 [CURRENT_VERSION] and FORMAT_VERSION *)
Definition current_major : N := 1.
Definition current_minor : N := 0.

Section Binary.
  Context {F : Type}.
  Variable bits : F -> N.
  Variable unbits : N -> F.

  (** * Writing *)
  (** [write_list!] (write.rs:18-25): a list of fresh structs of the right size, each filled in *)
  Definition write_list {A} (d p : nat) (w : A -> obj -> obj) (l : list A) : obj := Structs (map (fun x => w x (fresh d p)) l).
  (** [t.0 + 1] is checked in debug builds, where it panics, and wraps around otherwise. *)
  Definition optional_id (o : option N) : N := match o with None => 0 | Some t => (t + 1) mod 4294967296 end.
  (** write.rs:132-135; hugr_v0_capnp.rs:4646, 4701-4719 *)
  Definition write_param (p : str * N) (b : obj) : obj := set32 0 (snd p) (set_ptr 0 (TextObj (fst p)) b).
  (** write.rs:119-130; hugr_v0_capnp.rs:2287, 2342-2400 *)
  Definition write_symbol (x : symbol N) (b : obj) : obj :=
    let b := set_ptr 0 (TextObj (s_name x)) b in
    let b := match s_vis x with Some Private => set16 2 1 b | Some Public => set16 2 2 b | None => b end in
    let b := set_ptr 1 (write_list 1 1 write_param (s_params x)) b in
    let b := set_ptr 2 (Words (s_where x)) b in
    set32 0 (s_sig x) b.
  (** The size of a symbol, for [init_…] *)
  Definition new_symbol (x : symbol N) : obj := write_symbol x (fresh 1 3).
  (** write.rs:74-117; hugr_v0_capnp.rs:1403, 1454-1573, 2082-2100 *)
  Definition write_operation (o : operation N) (b : obj) : obj :=
    match o with
    | Custom t => set32 0 t (set16 2 0 b)
    | Dfg => set16 2 1 b
    | Cfg => set16 2 2 b
    | Block => set16 2 3 b
    | DefineFunc x => set_ptr 0 (new_symbol x) (set16 2 4 b)
    | DeclareFunc x => set_ptr 0 (new_symbol x) (set16 2 5 b)
    | DefineAlias x t =>
      let b := set32 0 0 (set_ptr 0 Null (set16 2 6 b)) in
      set32 0 t (set_ptr 0 (new_symbol x) b)
    | DeclareAlias x => set_ptr 0 (new_symbol x) (set16 2 7 b)
    | Invalid => set16 2 8 b
    | TailLoop => set16 2 9 b
    | Conditional => set16 2 10 b
    | Import n => set_ptr 0 (TextObj n) (set16 2 11 b)
    | DeclareConstructor x => set_ptr 0 (new_symbol x) (set16 2 12 b)
    | DeclareOperation x => set_ptr 0 (new_symbol x) (set16 2 13 b)
    end.
  (** write.rs:65-72; hugr_v0_capnp.rs:922, 977-1059 *)
  Definition write_node (n : tnode) (b : obj) : obj :=
    let b := set_ptr 0 (write_operation (tn_op n) (fresh 1 1)) b in
    let b := set_ptr 1 (Words (tn_in n)) b in
    let b := set_ptr 2 (Words (tn_out n)) b in
    let b := set_ptr 4 (Words (tn_meta n)) b in
    let b := set_ptr 3 (Words (tn_regions n)) b in
    set32 0 (optional_id (tn_sig n)) b.
  (** write.rs:137-158; hugr_v0_capnp.rs:2658, 2713-2799, 3063, 3118-3128 *)
  Definition write_scope (s : N * N) (b : obj) : obj := set32 1 (snd s) (set32 0 (fst s) b).
  Definition write_region (r : tregion) (b : obj) : obj :=
    let b := set16 0 (match tr_kind r with DataFlow => 0 | ControlFlow => 1 | ModuleRegion => 2 end) b in
    let b := set_ptr 0 (Words (tr_sources r)) b in
    let b := set_ptr 1 (Words (tr_targets r)) b in
    let b := set_ptr 2 (Words (tr_children r)) b in
    let b := set_ptr 3 (Words (tr_meta r)) b in
    let b := set32 1 (optional_id (tr_sig r)) b in
    match tr_scope r with Some s => set_ptr 4 (write_scope s (fresh 1 0)) b | None => b end.
  (** write.rs:193-198; hugr_v0_capnp.rs:3937, 3988-3996 *)
  Definition write_part (p : part N) (b : obj) : obj :=
    match p with Item t => set32 0 t (set16 2 0 b) | Splice t => set32 0 t (set16 2 1 b) end.
  (** write.rs:160-191; hugr_v0_capnp.rs:3430, 3481-3567, 4237-4247, 4472-4482 *)
  Definition write_term (t : @tterm F) (b : obj) : obj :=
    match t with
    | TWildcard => set16 2 8 b
    | TVar n i => set16 3 i (set32 0 n (set16 3 0 (set32 0 0 (set16 2 1 b))))
    | TLit (LStr s) => set_ptr 0 (TextObj s) (set16 2 3 b)
    | TLit (LNat n) => set64 1 n (set16 2 4 b)
    | TLit (LBytes s) => set_ptr 0 (DataObj s) (set16 2 5 b)
    | TLit (LFloat f) => set64 1 (bits f) (set16 2 6 b)
    | TFunc r => set32 0 r (set16 2 7 b)
    | TApply n ts => set_ptr 0 (Words ts) (set32 0 n (set_ptr 0 Null (set32 0 0 (set16 2 0 b))))
    | TList ps => set_ptr 0 (write_list 1 0 write_part ps) (set16 2 2 b)
    | TTuple ps => set_ptr 0 (write_list 1 0 write_part ps) (set16 2 9 b)
    end.
  (** write.rs:58-63; hugr_v0_capnp.rs:578, 633-679 *)
  Definition write_module (m : @tmodule F) (b : obj) : obj :=
    let b := set32 0 (tm_root m) b in
    let b := set_ptr 0 (write_list 1 5 write_node (tm_nodes m)) b in
    let b := set_ptr 1 (write_list 1 5 write_region (tm_regions m)) b in
    set_ptr 2 (write_list 2 1 write_term (tm_terms m)) b.
  (** write.rs:53-56; hugr_v0_capnp.rs:334, 389-399 *)
  Definition write_version (major minor : N) (b : obj) : obj := set32 1 minor (set32 0 major b).
  (** write.rs:48-51, 38-46 [write_to_vec]; hugr_v0_capnp.rs:87, 146-164 *)
  Definition write_package (ms : list (@tmodule F)) : obj :=
    let b := set_ptr 0 (write_list 1 3 write_module ms) (fresh 0 2) in
    set_ptr 1 (write_version current_major current_minor (fresh 1 0)) b.

  (** * Reading *)
  (** [checked_sub(1)] *)
  Definition read_optional (n : N) : option N := if n =? 0 then None else Some (n - 1).
  (** read.rs:316-323 *)
  Definition read_param (b : obj) : got (str * N) := let! n := as_text (get_ptr 0 b) in Good (n, get32 0 b).
  (** read.rs:235-243; the enum has the values 0, 1 and 2 *)
  Definition read_visibility (n : N) : got (option visibility) :=
    if n =? 0 then Good None else if n =? 1 then Good (Some Private) else if n =? 2 then Good (Some Public) else Decoding.
  (** read.rs:245-267 [read_symbol] *)
  Definition read_symbol (constraints : option (list N)) (b : obj) : got (symbol N) :=
    let! n := as_text (get_ptr 0 b) in
    let! v := read_visibility (get16 2 b) in
    let! l := as_structs (get_ptr 1 b) in
    let! ps := collect read_param l in
    let! ws := (match constraints with Some cs => Good cs | None => as_words (get_ptr 2 b) end) in
    Good (Symbol v n ps ws (get32 0 b)).
  Definition symbol_at (constraints : option (list N)) (b : obj) : got (symbol N) := let! s := as_struct (get_ptr 0 b) in read_symbol constraints s.
  (** read.rs:161-194 [read_operation] *)
  Definition read_operation (b : obj) : got (operation N) :=
    match get16 2 b with
    | 0 => Good (Custom (get32 0 b))
    | 1 => Good Dfg
    | 2 => Good Cfg
    | 3 => Good Block
    | 4 => let! x := symbol_at None b in Good (DefineFunc x)
    | 5 => let! x := symbol_at None b in Good (DeclareFunc x)
    | 6 => let! x := symbol_at (Some []) b in Good (DefineAlias x (get32 0 b))
    | 7 => let! x := symbol_at (Some []) b in Good (DeclareAlias x)
    | 8 => Good Invalid
    | 9 => Good TailLoop
    | 10 => Good Conditional
    | 11 => let! n := as_text (get_ptr 0 b) in Good (Import n)
    | 12 => let! x := symbol_at None b in Good (DeclareConstructor x)
    | 13 => let! x := symbol_at None b in Good (DeclareOperation x)
    | _ => Decoding
    end.
  (** read.rs:143-159 [read_node] *)
  Definition read_node (b : obj) : got tnode :=
    let! o := as_struct (get_ptr 0 b) in
    let! op := read_operation o in
    let! ins := as_words (get_ptr 1 b) in
    let! outs := as_words (get_ptr 2 b) in
    let! rs := as_words (get_ptr 3 b) in
    let! ms := as_words (get_ptr 4 b) in
    Good (TNode op ins outs rs ms (read_optional (get32 0 b))).
  (** read.rs:196-233 [read_region], [read_region_scope] *)
  Definition read_kind (n : N) : got region_kind :=
    if n =? 0 then Good DataFlow else if n =? 1 then Good ControlFlow else if n =? 2 then Good ModuleRegion else Decoding.
  Definition read_region (b : obj) : got tregion :=
    let! k := read_kind (get16 0 b) in
    let! src := as_words (get_ptr 0 b) in
    let! tgt := as_words (get_ptr 1 b) in
    let! cs := as_words (get_ptr 2 b) in
    let! ms := as_words (get_ptr 3 b) in
    let! sc := (match get_ptr 4 b with Null => Good None | s => let! s := as_struct s in Good (Some (get32 0 s, get32 1 s)) end) in
    Good (TRegion k src tgt cs ms (read_optional (get32 1 b)) sc).
  (** read.rs:305-314 *)
  Definition read_part (b : obj) : got (part N) :=
    match get16 2 b with 0 => Good (Item (get32 0 b)) | 1 => Good (Splice (get32 0 b)) | _ => Decoding end.
  (** read.rs:269-303 [read_term]; hugr_v0_capnp.rs:3371-3425 *)
  Definition read_term (b : obj) : got (@tterm F) :=
    match get16 2 b with
    | 0 => let! ts := as_words (get_ptr 0 b) in Good (TApply (get32 0 b) ts)
    | 1 => Good (TVar (get32 0 b) (get16 3 b))
    | 2 => let! l := as_structs (get_ptr 0 b) in let! ps := collect read_part l in Good (TList ps)
    | 3 => let! s := as_text (get_ptr 0 b) in Good (TLit (LStr s))
    | 4 => Good (TLit (LNat (get64 1 b)))
    | 5 => let! s := as_data (get_ptr 0 b) in Good (TLit (LBytes s))
    | 6 => Good (TLit (LFloat (unbits (get64 1 b))))
    | 7 => Good (TFunc (get32 0 b))
    | 8 => Good TWildcard
    | 9 => let! l := as_structs (get_ptr 0 b) in let! ps := collect read_part l in Good (TTuple ps)
    | _ => Decoding
    end.
  (** read.rs:111-141 [read_module] *)
  Definition read_module (b : obj) : got (@tmodule F) :=
    let! l := as_structs (get_ptr 0 b) in
    let! ns := collect read_node l in
    let! l := as_structs (get_ptr 1 b) in
    let! rs := collect read_region l in
    let! l := as_structs (get_ptr 2 b) in
    let! ts := collect read_term l in
    Good (TModule (get32 0 b) ns rs ts).
  (** read.rs:83-109 [read_package], [read_version] *)
  Definition read_package (b : obj) : got (list (@tmodule F)) :=
    let! v := as_struct (get_ptr 1 b) in
    let major := get32 0 v in
    let minor := get32 1 v in
    if negb (major =? current_major) || (current_minor <? minor) then Version major minor
    else
      let! l := as_structs (get_ptr 0 b) in
      collect read_module l.
End Binary.
