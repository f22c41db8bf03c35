(** Model of the serial form of a HUGR.
    Source: hugr-core/src/hugr/serialize.rs:80-332.
    The JSON text itself is left out: a serial HUGR is the struct that serde writes and reads.  An
    extension operation is written as an opaque one ([ser_op]); a port offset is a [u32], which every
    port index fits.  Nodes are visited in some order ([h_nodes]); the code visits them by index. *)
From Coq Require Import List Bool NArith Arith.
From Verif Require Import TypesModel GraphModel OpModel.
Import ListNotations.

(** serialize.rs:81-86 [NodeSer] *)
Record nodeser := { ns_parent : N; ns_op : op }.

(** serialize.rs:90-107 [SerHugrLatest], without the name of the encoder *)
Record ser (M : Type) := {
  s_nodes : list nodeser;
  s_edges : list ((N * option nat) * (N * option nat));
  s_meta : option (list (option M));
  s_entry : option N }.
Arguments s_nodes {M}. Arguments s_edges {M}. Arguments s_meta {M}. Arguments s_entry {M}.

(** serialize.rs:112-143 [HUGRSerializationError], the errors of decoding *)
Inductive derr :=
| FirstNodeNotRoot (n : N)
| BadRoot                            (* HugrError: the first operation cannot contain the graph *)
| UnknownEdgeNode (n : N)
| MissingPortOffset (n : N) (d : dir).

Inductive decoded (A : Type) := DOk (a : A) | DErr (e : derr) | DPanic.
Arguments DOk {A}. Arguments DErr {A}. Arguments DPanic {A}.

Section Serial.
  Context {M : Type}.
  Notation hugr := (hugr op M).

  (** ** Encoding, serialize.rs:187-250; [None] is a panic. *)
  (** serialize.rs:193-196 ([node_rekey]): the position in the canonical order, which has no repetitions *)
  Fixpoint position (n : N) (order : list N) (i : N) : option N :=
    match order with
    | [] => None
    | m :: order => if N.eqb m n then Some i else position n order (i + 1)%N
    end.
  Definition rekey (h : hugr) (n : N) : option N := position n (descendants h (h_root h)) 0.

  (** Assignment to an element of a vector. *)
  Fixpoint put {A} (i : nat) (a : A) (l : list A) : option (list A) :=
    match i, l with
    | _, [] => None
    | 0, _ :: l => Some (a :: l)
    | S i, b :: l => option_map (cons b) (put i a l)
    end.

  (** serialize.rs:198-213, the loop that fills [nodes] and [metadata] *)
  Fixpoint fill (h : hugr) (todo : list N) (ns : list (option nodeser)) (ms : list (option M))
    : option (list (option nodeser) * list (option M)) :=
    match todo with
    | [] => Some (ns, ms)
    | n :: todo =>
      match rekey h (match get_parent h n with Some p => p | None => n end), rekey h n with
      | Some p, Some i =>
        match put (N.to_nat i) (Some {| ns_parent := p; ns_op := ser_op (h_ops h n) |}) ns,
              put (N.to_nat i) (h_meta h n) ms with
        | Some ns, Some ms => fill h todo ns ms
        | _, _ => None
        end
      | _, _ => None
      end
    end.

  (** serialize.rs:215-223 ([find_offset]) *)
  Definition keeps_offset (o : op) (d : dir) (i : nat) : bool :=
    Nat.ltb i (value_port_count o d) ||
    match static_port o d with Some p => Nat.eqb p i | None => false end ||
    negb (match other_port_kind o d with Some EOrder => true | _ => false end).
  Definition find_offset (h : hugr) (e : endpoint) (d : dir) : option (N * option nat) :=
    match rekey h (fst e) with
    | Some n => Some (n, if keeps_offset (h_ops h (fst e)) d (snd e) then Some (snd e) else None)
    | None => None
    end.

  (** serialize.rs:225-238, the links in the order in which they are visited *)
  Definition listed (h : hugr) : list link :=
    flat_map (fun n => flat_map (fun i => map (fun t => ((n, i), t)) (linked_inputs h n i)) (seq 0 (h_out h n))) (h_nodes h).
  Definition edge (h : hugr) (l : link) : option ((N * option nat) * (N * option nat)) :=
    match find_offset h (fst l) Out, find_offset h (snd l) Inc with Some a, Some b => Some (a, b) | _, _ => None end.

  Definition encode (h : hugr) : option (ser M) :=
    let k := length (h_nodes h) in
    match fill h (h_nodes h) (repeat None k) (repeat None k) with
    | None => None
    | Some (ns, ms) =>
      match all_some ns, all_some (map (edge h) (listed h)), rekey h (h_entry h) with
      | Some ns, Some es, Some e =>
        Some {| s_nodes := ns; s_edges := es; s_meta := Some ms; s_entry := Some e |}
      | _, _, _ => None
      end
    end.

  (** ** Decoding, serialize.rs:252-332 *)
  Variable main : N.

  Fixpoint add_rest (pad : N) (h : hugr) (ns : list nodeser) : option hugr :=
    match ns with
    | [] => Some h
    | n :: ns => match add_next h (ns_parent n + pad)%N (ns_op n) with Some h => add_rest pad h ns | None => None end
    end.

  (** serialize.rs:292-299: a plain assignment to the map of metadata *)
  Fixpoint add_meta (h : hugr) (i : N) (ms : list (option M)) : hugr :=
    match ms with
    | [] => h
    | m :: ms =>
      add_meta (match m with Some _ => set_meta h (upd (h_meta h) i m) | None => h end) (i + 1)%N ms
    end.

  (** serialize.rs:301-319 ([unwrap_offset]) *)
  Definition unwrap_offset (h : hugr) (n : N) (i : option nat) (d : dir) : decoded nat :=
    if contains h n then
      match i with
      | Some i => DOk i
      | None => match other_port (h_ops h n) d with Some i => DOk i | None => DErr (MissingPortOffset n d) end
      end
    else DErr (UnknownEdgeNode n).

  (** serialize.rs:320-328 *)
  Fixpoint add_edges (pad : N) (h : hugr) (es : list ((N * option nat) * (N * option nat))) : decoded hugr :=
    match es with
    | [] => DOk h
    | ((s, i), (t, j)) :: es =>
      match unwrap_offset h (s + pad) i Out with
      | DOk i =>
        match unwrap_offset h (t + pad) j Inc with
        | DOk j => match connect h (s + pad)%N i (t + pad)%N j with Some h => add_edges pad h es | None => DPanic end
        | DErr e => DErr e
        | DPanic => DPanic
        end
      | DErr e => DErr e
      | DPanic => DPanic
      end
    end.

  Definition decode (s : ser M) : decoded hugr :=
    match s_nodes s with
    | [] => DPanic
    | r :: ns =>
      if negb (N.eqb (ns_parent r) 0) then DErr (FirstNodeNotRoot (ns_parent r))
      else
        match make_module_hugr main (ns_op r) with
        | None => DPanic
        | Some None => DErr BadRoot
        | Some (Some h) =>
          let pad := h_entry h in
          match add_rest pad h ns with
          | None => DPanic
          | Some h =>
            match (match s_entry s with Some e => set_entrypoint h (e + pad)%N | None => Some h end) with
            | None => DPanic
            | Some h => add_edges pad (match s_meta s with Some ms => add_meta h pad ms | None => h end) (s_edges s)
            end
          end
        end
    end.
End Serial.
