(** Model of inserting nodes of one HUGR into another.
    Source: hugr-core/src/hugr/hugrmut.rs:676-732 [insert_forest_internal], :547-608 [insert_forest],
    [insert_view_forest], :191-276 [insert_hugr], [insert_region], [insert_from_view], [insert_subgraph],
    :610-644 [copy_descendants]. *)
From Coq Require Import List Bool NArith Arith.
From Verif Require Import GraphModel.
Import ListNotations.

(** A node map. *)
Fixpoint lookup {A} (m : list (N * A)) (n : N) : option A :=
  match m with
  | [] => None
  | (k, v) :: m => if N.eqb k n then Some v else lookup m n
  end.

Inductive result (A : Type) :=
| Done (a : A)
| Duplicate (n : N)            (* InsertForestError::DuplicateNode *)
| Overlap (subtree parent : N) (* InsertForestError::SubtreeAlreadyCopied *)
| Panic.
Arguments Done {A}. Arguments Duplicate {A}. Arguments Overlap {A}. Arguments Panic {A}.

Section Insert.
  Context {O M : Type}.
  Variable o_default : O.
  Variable o_in o_out : O -> nat.
  Variable m_empty : M -> bool.
  Notation hugr := (hugr O M).

  (** The links into / out of a node, port by port (hugrmut.rs:700-718, the loops over the ports). *)
  Definition links_in (other : hugr) (old : N) : list link :=
    flat_map (fun t => filter (at_port old Inc t) (h_links other)) (seq 0 (h_in other old)).
  Definition links_out (other : hugr) (old : N) : list link :=
    flat_map (fun s => filter (at_port old Out s) (h_links other)) (seq 0 (h_out other old)).

  (** Links with an end that is not (yet) mapped are skipped. *)
  Fixpoint connect_all (m : list (N * N)) (h : hugr) (ls : list link) : option hugr :=
    match ls with
    | [] => Some h
    | ((s, i), (t, j)) :: ls =>
      match lookup m s, lookup m t with
      | Some s', Some t' =>
        match connect h s' i t' j with Some h => connect_all m h ls | None => None end
      | _, _ => connect_all m h ls
      end
    end.

  (** The first loop (hugrmut.rs:688-719); [fresh] are the indices handed out by the allocator. *)
  Fixpoint insert_nodes (other : hugr) (h : hugr) (m : list (N * N)) (pairs : list (N * N))
    : result (hugr * list (N * N)) :=
    match pairs with
    | [] => Done (h, m)
    | (old, new) :: pairs =>
      match add_node o_in o_out h new o_default with
      | None => Panic
      | Some h =>
        match lookup m old with
        | Some _ => Duplicate old
        | None =>
          let m := (old, new) :: m in
          match set_num_ports h new (h_in other old) (h_out other old) with
          | None => Panic
          | Some h =>
            match connect_all m h (links_in other old) with
            | None => Panic
            | Some h =>
              match connect_all m h (filter (fun l => negb (N.eqb (fst (snd l)) old)) (links_out other old)) with
              | None => Panic
              | Some h => insert_nodes other h m pairs
              end
            end
          end
        end
      end
    end.

  (** hugrmut.rs:720-722 *)
  Fixpoint place_roots (m : list (N * N)) (h : hugr) (roots : list (N * N)) : option hugr :=
    match roots with
    | [] => Some h
    | (r, p) :: roots =>
      match lookup m r with
      | None => None
      | Some r' => match set_parent h r' p with Some h => place_roots m h roots | None => None end
      end
    end.

  (** hugrmut.rs:723-730 *)
  Fixpoint place_rest (other : hugr) (m : list (N * N)) (h : hugr) (nodes : list N) : option hugr :=
    match nodes with
    | [] => Some h
    | old :: nodes =>
      match lookup m old with
      | None => None
      | Some new =>
        match get_parent h new with
        | Some _ => place_rest other m h nodes
        | None =>
          match get_parent other old with
          | None => None
          | Some p =>
            match lookup m p with
            | None => None
            | Some p' => match set_parent h new p' with Some h => place_rest other m h nodes | None => None end
            end
          end
        end
      end
    end.

  (** hugrmut.rs:676-732 [insert_forest_internal] *)
  Definition insert_forest_internal (h other : hugr) (nodes fresh : list N) (roots : list (N * N))
    : result (hugr * list (N * N)) :=
    match insert_nodes other h [] (combine nodes fresh) with
    | Done (h, m) =>
      match place_roots m h roots with
      | None => Panic
      | Some h => match place_rest other m h nodes with None => Panic | Some h => Done (h, m) end
      end
    | Duplicate n => Duplicate n
    | Overlap a b => Overlap a b
    | Panic => Panic
    end.

  (** hugrmut.rs:571-581: operations and metadata are moved. *)
  Fixpoint move_contents (other : hugr) (h : hugr) (m : list (N * N)) : hugr :=
    match m with
    | [] => h
    | (old, new) :: m =>
      move_contents other (set_meta (set_ops h (upd (h_ops h) new (h_ops other old)))
                                    (upd (h_meta h) new (h_meta other old))) m
    end.

  (** hugrmut.rs:594-606: operations are copied; metadata is only copied if there is some. *)
  Fixpoint copy_contents (other : hugr) (h : hugr) (m : list (N * N)) : hugr :=
    match m with
    | [] => h
    | (old, new) :: m =>
      let h := set_ops h (upd (h_ops h) new (h_ops other old)) in
      let h := match h_meta other old with
               | Some x => if m_empty x then h else set_meta h (upd (h_meta h) new (Some x))
               | None => h
               end in
      copy_contents other h m
    end.

  (** hugrmut.rs:552-561: is a strict ancestor of one root another root? *)
  Fixpoint root_above (other : hugr) (roots : list (N * N)) (fuel : nat) (n : N) : option N :=
    match fuel with
    | 0 => None
    | S fuel =>
      match get_parent other n with
      | None => None
      | Some p => match lookup roots p with Some _ => Some p | None => root_above other roots fuel p end
      end
    end.
  Fixpoint overlap (other : hugr) (roots all : list (N * N)) : option (N * N) :=
    match roots with
    | [] => None
    | (r, _) :: roots =>
      match root_above other all (length (h_nodes other)) r with
      | Some p => Some (r, p)
      | None => overlap other roots all
      end
    end.

  (** hugrmut.rs:547-583 [insert_forest].  The hash map of the roots is any list without repeated
      keys; iterating over it gives its entries in some order. *)
  Definition insert_forest (h other : hugr) (fresh : list N) (roots : list (N * N)) : result (hugr * list (N * N)) :=
    match overlap other roots roots with
    | Some (r, p) => Overlap r p
    | None =>
      match insert_forest_internal h other (flat_map (fun r => descendants other (fst r)) roots) fresh roots with
      | Done (h, m) => Done (move_contents other h m, m)
      | Duplicate _ => Panic
      | r => r
      end
    end.

  (** hugrmut.rs:585-608 [insert_view_forest] *)
  Definition insert_view_forest (h other : hugr) (nodes fresh : list N) (roots : list (N * N))
    : result (hugr * list (N * N)) :=
    match insert_forest_internal h other nodes fresh roots with
    | Done (h, m) => Done (copy_contents other h m, m)
    | r => r
    end.

  (** hugrmut.rs:191-247 [insert_hugr], [insert_region], [insert_from_view] *)
  Definition insert_region (h : hugr) (p : N) (other : hugr) (region : N) (fresh : list N)
    : result (hugr * list (N * N)) := insert_forest h other fresh [(region, p)].
  Definition insert_hugr (h : hugr) (p : N) (other : hugr) (fresh : list N)
    : result (hugr * list (N * N)) := insert_region h p other (h_entry other) fresh.
  Definition insert_from_view (h : hugr) (p : N) (other : hugr) (fresh : list N)
    : result (hugr * list (N * N)) :=
    insert_view_forest h other (descendants other (h_entry other)) fresh [(h_entry other, p)].

  (** hugrmut.rs:263-276 [insert_subgraph] *)
  Definition insert_subgraph (h : hugr) (p : N) (other : hugr) (nodes fresh : list N)
    : result (hugr * list (N * N)) :=
    insert_view_forest h other nodes fresh (map (fun n => (n, p)) nodes).
End Insert.
